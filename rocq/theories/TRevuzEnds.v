(** Theorems C117 and C144: when revuz_minimize ends, with given leaves, labels and a visitor. *)
From Coq Require Import ZArith.
From Verif Require Import Graph GraphProofs Automaton AutomatonSpec AutomatonProofs AutomatonProofs2 AutomatonProofs3 NodeAut NodeAutSpec NodeAutProofs Heap Revuz RevuzSpec RevuzProofs RevuzProofs2 RevuzProofs3 TRevuz RevuzNode RevuzNodeSpec RevuzNodeProofs TRevuzNode RevuzCycleSpec RevuzCycleProofs RevuzCycleProofs2 RevuzNodeCycleProofs TRevuzCycle TRevuzNodeCycle RevuzNodeLab RevuzVis RevuzVisSpec TRevuzVis RevuzNodeVis RevuzNodeVisSpec TRevuzNodeVis Base BaseProofs.

(** the vertices that are processed next have the next height *)
Lemma next_level (heights : dict nat nat) N h l : (forall v, height_of heights v < N) -> sof (filter (fun p => height_of heights p =? S h) l) = [] \/ S h < N.
Proof.
  intros H. destruct (sof (filter (fun p => height_of heights p =? S h) l)) as [|p t] eqn:E; [left; reflexivity|right]. assert (I : In p (sof (filter (fun p => height_of heights p =? S h) l))) by (rewrite E; left; reflexivity).
  rewrite In_sof in I. apply filter_In in I. destruct I as [_ I]. apply Nat.eqb_eq in I. rewrite <- I. apply H.
Qed.
Section Loop.
  Context {A : Type} {EA : EqDec A}.
  Lemma loop_ends ord ord_v (m : dict nat nat) N : (forall v, height_of m v < N) -> forall fuel h todo (g : iaut A), N <= h + fuel -> todo = [] \/ h < N -> minimize_loop fuel ord ord_v m h todo g <> None.
  Proof.
    intros H. induction fuel as [|fuel IH]; intros h todo g F L; (destruct todo as [|q todo]; [cbn; discriminate|]); (destruct L as [L|L]; [discriminate|]); [lia|]. cbn [minimize_loop].
    destruct (foreach (merge_group ord) g (aggregates g (ord_v fuel (q :: todo)))) as [g' [u|x]]; [|discriminate]. apply IH; [lia|]. apply (next_level m N h); exact H.
  Qed.
  Lemma nloop_ends {B C} {EB : EqDec B} {EC : EqDec C} (pv : option (nat -> B)) (pe : option (edge (option A) -> C)) ord ord_v (m : dict nat nat) N : (forall v, height_of m v < N) ->
    forall fuel h todo (g : naut A), N <= h + fuel -> todo = [] \/ h < N -> nlminimize_loop pv pe fuel ord ord_v m h todo g <> None.
  Proof.
    intros H. induction fuel as [|fuel IH]; intros h todo g F L; (destruct todo as [|q todo]; [cbn; discriminate|]); (destruct L as [L|L]; [discriminate|]); [lia|]. cbn [nlminimize_loop].
    destruct (nlaggregates pv pe g (ord_v fuel (q :: todo))) as [ag [u|x]]; [|discriminate]. destruct (foreach (nlmerge_group ord) g ag) as [g' [u'|x]]; [|discriminate]. apply IH; [lia|]. apply (next_level m N h); exact H.
  Qed.
End Loop.
(** all the heights are smaller than the number of vertices *)
Lemma heights_short (V : list nat) (arc : nat -> nat -> Prop) (m : dict nat nat) r : (forall u v, arc u v -> In u V /\ In v V) -> cycles_apart arc -> V <> [] ->
  (forall v, (In v V /\ exists n, dget m v = Some n /\ height_is arc v n /\ (Z.of_nat n <= r)%Z) \/ (~ (In v V /\ ends arc v) /\ dget m v = dget [] v)) -> forall v, height_of m v < length V.
Proof.
  intros AI CA NV H v. unfold height_of. destruct (H v) as [(Vv & k & G & [(l & LF & P) _] & _)|[_ G]]; rewrite G; [|cbn; destruct V; [contradiction|cbn; lia]]. apply (leaf_path_short V arc AI k v CA). split; [exact Vv|]. exists l. auto.
Qed.
Lemma leaves_of_in V deg leaves q : (forall q, In q leaves -> In q V) -> In q (leaves_of V deg leaves) -> In q V.
Proof. intros H. destruct leaves; cbn [leaves_of]; [|apply H]. intros I. apply filter_In in I. apply I. Qed.

(** C117: with a visitor and any leaves, revuz_minimize never ends when a state of a cycle leads to a leaf, and it ends otherwise, after at most as many levels as there are states. *)
Theorem C117_ends (A : Type) (EA : EqDec A) n (ops : list (aop A)) fuel ord ord_v leaves : disciplined (aa_init n) ops -> valid_order ord_v ->
  let g := fst (runs IA_call (IA_init n) ops) in let arc := aut_arc (IA_edges g) in
  ((exists k v, upath arc (S k) v v /\ ends arc v) -> vrevuz_minimize fuel ord ord_v leaves g = None) /\
  ((forall q, In q leaves -> In q (IA_vertices g)) -> cycles_apart arc -> length (IA_vertices g) <= fuel -> exists out, vrevuz_minimize fuel ord ord_v leaves g = Some out).
Proof.
  intros D OV g arc. pose proof (C117_same_result fuel ord ord_v leaves g) as SR. split.
  - intros CY. pose proof (C121_never_ends n ops fuel ord ord_v leaves D OV CY) as NE. fold g in NE. rewrite NE in SR. destruct (vrevuz_minimize fuel ord ord_v leaves g); [discriminate SR|reflexivity].
  - intros IL CA F. destruct (vrevuz_minimize fuel ord ord_v leaves g) as [out|]; [eauto|]. exfalso. cbn [option_map] in SR. symmetry in SR. revert SR.
    destruct (iarep_runs ops _ _ (iarep_init n) D) as [R _]. fold g in R. destruct (proj2 (rep_height g _ ord_v [] fuel R OV) CA F) as (r & m & E & HT & _). unfold revuz_minimize. rewrite E.
    destruct (leaves_of (IA_vertices g) (fun q => length (IA_out_edges g q)) leaves) as [|q todo] eqn:EL; [destruct fuel; discriminate|].
    assert (Vq : In q (IA_vertices g)) by (apply (leaves_of_in _ (fun q => length (IA_out_edges g q)) leaves q IL); rewrite EL; left; reflexivity).
    assert (NV : IA_vertices g <> []) by (intros X; rewrite X in Vq; exact Vq).
    apply (loop_ends ord ord_v m (length (IA_vertices g))); [apply (heights_short _ arc m r); [intros u v; apply (arc_in g _ u v R)|assumption..]|lia|right]. destruct (IA_vertices g); [contradiction|cbn; lia].
Qed.
Print Assumptions C117_ends.

(** C144: the same on the class IncidenceNodeAutomaton, with any labels. *)
Theorem C144_ends (A B C : Type) (EA : EqDec A) (EB : EqDec B) (EC : EqDec C) (pmap_vlabel : option (nat -> B)) (pmap_elabel : option (edge (option A) -> C)) (ops : list (rop A)) fuel ord ord_v leaves :
  ndisciplined ns_init (graph_calls ops) -> valid_order ord_v ->
  let g := INA_history ops in let arc := aut_arc (NA_edges g) in
  ((exists k v, upath arc (S k) v v /\ ends arc v) -> nvrevuz_minimize pmap_vlabel pmap_elabel fuel ord ord_v leaves g = None) /\
  ((forall q, In q leaves -> In q (NA_vertices g)) -> cycles_apart arc -> length (NA_vertices g) <= fuel -> exists out, nvrevuz_minimize pmap_vlabel pmap_elabel fuel ord ord_v leaves g = Some out).
Proof.
  intros D OV g arc. pose proof (C144_same_result pmap_vlabel pmap_elabel fuel ord ord_v leaves g) as SR.
  pose proof (history_rep ops _ _ nrep_init D) as NR. fold (INA_history ops) in NR. fold g in NR. set (s1 := fst (runs ns_step ns_init (graph_calls ops))) in NR.
  pose (sym := ns_sym s1). pose (s := AA (ns_next s1) (ns_V s1) (ns_T s1) (na_q0 g) (na_final g)).
  assert (R : narep sym g s) by (split; [unfold sym; cbn; destruct s1; exact NR|split; reflexivity]). destruct (nrep_height sym g s ord_v [] fuel R OV) as [H1 H2]. fold arc in H1, H2. split.
  - intros CY. unfold nvrevuz_minimize. rewrite (H1 CY). reflexivity.
  - intros IL CA F. destruct (nvrevuz_minimize pmap_vlabel pmap_elabel fuel ord ord_v leaves g) as [out|]; [eauto|]. exfalso. cbn [option_map] in SR. symmetry in SR. revert SR.
    destruct (H2 CA F) as (r & m & E & HT & _). unfold nlrevuz_minimize. rewrite E.
    destruct (leaves_of (NA_vertices g) (NA_out_degree g) leaves) as [|q todo] eqn:EL; [destruct fuel; discriminate|].
    assert (Vq : In q (NA_vertices g)) by (apply (leaves_of_in _ (NA_out_degree g) leaves q IL); rewrite EL; left; reflexivity).
    assert (NV : NA_vertices g <> []) by (intros X; rewrite X in Vq; exact Vq).
    apply (nloop_ends pmap_vlabel pmap_elabel ord ord_v m (length (NA_vertices g))); [apply (heights_short _ arc m r); [intros u v; apply (narc_in sym g s u v R)|assumption..]|lia|right]. destruct (NA_vertices g); [contradiction|cbn; lia].
Qed.
Print Assumptions C144_ends.

(** The automata of the Examples of C121 (a state of a cycle leads to a leaf), and of C144 (the cycle of 1 leads to no leaf) with leaves of different heights *)
Example C144_ex_never_ends : forall fuel leaves, nvrevuz_minimize (@None (nat -> nat)) (@None (edge (option nat) -> nat)) fuel id_ord id_ord leaves (INA_history ncy_ops) = None.
Proof.
  intros fuel leaves. apply (C144_ends nat nat nat _ _ _ None None ncy_ops fuel id_ord id_ord leaves); [cbn; tauto|apply id_ord_valid|]. exists 0, 0. split.
  - econstructor; [exists None; vm_compute; tauto|constructor].
  - exists 1, 1. split.
    + intros u [a I]. vm_compute in I. destruct I as [I|[I|[]]]; discriminate.
    + econstructor; [exists (Some 7); vm_compute; tauto|constructor].
Qed.
Example C144_ex_ends : cycles_apart (aut_arc (NA_edges (INA_history rv_cyc))) /\
  option_map (fun out => (map fst (snd (fst out)), snd out, NA_vertices (fst (fst out)))) (nvrevuz_minimize (@None (nat -> nat)) (@None (edge (option nat) -> nat)) 5 id_ord id_ord [1; 3; 2] (INA_history rv_cyc)) =
    Some ([MergingStates 2 3; MoveTransition (Edge 4 3 (Some 8)) (Some (Edge 4 2 (Some 8))); RemoveVertex 3; StatesMerged 2 3], Ok 1%Z, [0; 1; 2; 4]).
Proof.
  split; [|vm_compute; reflexivity]. assert (ST : forall u v, aut_arc (NA_edges (INA_history rv_cyc)) u v -> (u = 0 /\ (v = 1 \/ v = 2)) \/ (u = 1 /\ v = 1) \/ (u = 4 /\ v = 3)).
  { intros u v [a I]. vm_compute in I. repeat (destruct I as [I|I]; [injection I as <- <- <-; lia|]). destruct I. }
  assert (ONE : forall k v, upath (aut_arc (NA_edges (INA_history rv_cyc))) k 1 v -> v = 1).
  { intros k v P. remember 1 as u eqn:Eu in P. revert Eu. induction P as [u|k u v x J P IH]; intros ->; [reflexivity|]. apply IH. apply ST in J. lia. }
  assert (TOP : forall k u v, upath (aut_arc (NA_edges (INA_history rv_cyc))) (S k) u v -> v = 1 \/ v = 2 \/ v = 3).
  { induction k as [|k IH]; intros u v P; inversion P as [|? ? x ? J P']; subst; [|eapply IH; exact P']. inversion P'; subst. apply ST in J. lia. }
  intros k v P (j & l & LF & Q). destruct (TOP _ _ _ P) as [E|E].
  - subst v. apply ONE in Q. subst l. apply (LF 1). exists (Some 7). vm_compute. tauto.
  - inversion P as [|? ? x ? J P']; subst. apply ST in J. lia.
Qed.
