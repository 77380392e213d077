(** Theorems C125: what two orders of iteration of the sets (two values of PYTHONHASHSEED) can change. *)
From Coq Require Import ZArith.
From Verif Require Import Graph GraphProofs Automaton AutomatonSpec AutomatonProofs AutomatonProofs2 Trie TrieSpec PBFS TPBFS Nfa NfaSpec NfaProofs NfaProofs2 TNfa TMoore Search Prune TPrune Revuz RevuzSpec RevuzProofs RevuzCycleSpec TRevuz TRevuzCycle Hopcroft THopcroft MinSpec MinProofs Heap Dijkstra DijkstraSpec TDijkstra OrderSpec OrderProofs Base BaseProofs.
Open Scope nat_scope.

Section T.
  Context {A : Type} {EA : EqDec A}.

  (** deterministic_inclusion returns the same value *)
  Theorem C125_inclusion (g1 g2 : aut A) ord ord' fuel fuel' : valid_order ord -> valid_order ord' ->
    (A_num_edges g1 + 1) * (A_num_edges g2 + 1) + 2 <= fuel -> (A_num_edges g1 + 1) * (A_num_edges g2 + 1) + 2 <= fuel' ->
    exists r, deterministic_inclusion g1 g2 ord fuel = Some r /\ deterministic_inclusion g1 g2 ord' fuel' = Some r.
  Proof.
    intros O O' L L'. destruct (C43_deterministic_inclusion g1 g2 ord fuel O L) as (r & E & R0 & R1 & R2 & R3). destruct (C43_deterministic_inclusion g1 g2 ord' fuel' O' L') as (r' & E' & S0 & S1 & S2 & S3).
    exists r. split; [exact E|]. rewrite E'. f_equal. assert (DEC : {r' = r} + {r' <> r}) by (decide equality; apply Z.eq_dec). destruct DEC as [|N]; [assumption|exfalso].
    assert (X1 : ~ ~ (included g1 g2 \/ ~ included g1 g2)) by tauto. assert (X2 : ~ ~ (included g2 g1 \/ ~ included g2 g1)) by tauto. apply X1. intros Y1. apply X2. intros Y2. apply N.
    destruct Y1 as [Y1|Y1], Y2 as [Y2|Y2].
    - rewrite (proj2 R0), (proj2 S0) by auto. reflexivity.
    - rewrite (proj2 R1), (proj2 S1) by auto. reflexivity.
    - rewrite (proj2 R2), (proj2 S2) by auto. reflexivity.
    - rewrite (proj2 R3), (proj2 S3) by auto. reflexivity.
  Qed.

  (** deterministic_intersection: the same words are accepted *)
  Theorem C125_intersection (g1 g2 : aut A) ord ord' fuel fuel' : A_initial g1 <> None -> A_initial g2 <> None -> valid_order ord -> valid_order ord' ->
    (A_num_edges g1 + 1) * (A_num_edges g2 + 1) + 2 <= fuel -> (A_num_edges g1 + 1) * (A_num_edges g2 + 1) + 2 <= fuel' ->
    exists d d', deterministic_intersection g1 g2 ord fuel = Some (d, Ok tt) /\ deterministic_intersection g1 g2 ord' fuel' = Some (d', Ok tt) /\ same_words_accepted d d'.
  Proof.
    intros I1 I2 O O' L L'. destruct (C44_deterministic_intersection_exact g1 g2 ord fuel I1 I2 O L) as (d & E & H). destruct (C44_deterministic_intersection_exact g1 g2 ord' fuel' I1 I2 O' L') as (d' & E' & H').
    exists d, d'. split; [exact E|]. split; [exact E'|]. intros w. apply eq_iff_eq_true. rewrite H, H'. tauto.
  Qed.

  (** deterministic_union: the same, when no word leads back to a single initial state *)
  Theorem C125_union_partial (g1 g2 : aut A) ord ord' fuel fuel' : A_initial g1 <> None -> A_initial g2 <> None -> valid_order ord -> valid_order ord' ->
    (forall w, A_delta_word g1 (A_initial g1) w = A_initial g1 \/ A_delta_word g2 (A_initial g2) w = A_initial g2 ->
       A_delta_word g1 (A_initial g1) w = A_initial g1 /\ A_delta_word g2 (A_initial g2) w = A_initial g2) ->
    (A_num_edges g1 + 1) * (A_num_edges g2 + 1) + 2 <= fuel -> (A_num_edges g1 + 1) * (A_num_edges g2 + 1) + 2 <= fuel' ->
    exists d d', deterministic_union g1 g2 ord fuel = Some (d, Ok tt) /\ deterministic_union g1 g2 ord' fuel' = Some (d', Ok tt) /\ same_words_accepted d d'.
  Proof.
    intros I1 I2 O O' C L L'. destruct (C45_deterministic_union_partial g1 g2 ord fuel I1 I2 O C L) as (d & E & H). destruct (C45_deterministic_union_partial g1 g2 ord' fuel' I1 I2 O' C L') as (d' & E' & H').
    exists d, d'. split; [exact E|]. split; [exact E'|]. intros w. apply eq_iff_eq_true. rewrite H, H'. tauto.
  Qed.

  (** Trie.insert of a trie: the same words are accepted; trie_matching: the same counters *)
  Theorem C125_fusion (t1 t2 : aut A) ord ord' fuel fuel' : is_trie t1 -> is_trie t2 -> valid_order ord -> valid_order ord' ->
    (length (A_vertices t1) + 1) * (length (A_vertices t2) + 1) + 2 <= fuel -> (length (A_vertices t1) + 1) * (length (A_vertices t2) + 1) + 2 <= fuel' ->
    exists t t', T_fusion t2 ord fuel t1 = Some (t, Ok tt) /\ T_fusion t2 ord' fuel' t1 = Some (t', Ok tt) /\ same_words_accepted t t'.
  Proof.
    intros I1 I2 O O' L L'. destruct (C18_trie_fusion t1 t2 ord fuel I1 I2 O L) as (t & E & H). destruct (C18_trie_fusion t1 t2 ord' fuel' I1 I2 O' L') as (t' & E' & H').
    exists t, t'. split; [exact E|]. split; [exact E'|]. intros w. apply eq_iff_eq_true. rewrite H, H'. tauto.
  Qed.
  Theorem C125_matching (ws1 ws2 : list (list A)) t1 t2 ord ord' fuel fuel' :
    T_inserts T_init ws1 = (t1, Ok tt) -> T_inserts T_init ws2 = (t2, Ok tt) -> valid_order ord -> valid_order ord' ->
    (A_num_edges t1 + 1) * (A_num_edges t2 + 1) + 2 <= fuel -> (A_num_edges t1 + 1) * (A_num_edges t2 + 1) + 2 <= fuel' ->
    exists n, trie_matching t1 t2 ord fuel = Some (n, Ok tt) /\ trie_matching t1 t2 ord' fuel' = Some (n, Ok tt).
  Proof.
    intros E1 E2 O O' L L'. pose (pre := fix pre (w : list A) : list (list A) := [] :: match w with [] => [] | a :: w' => map (cons a) (pre w') end).
    assert (PRE : forall w u, In u (pre w) <-> is_prefix u w).
    { induction w as [|a w IH]; intros u; cbn.
      - split; [intros [<-|[]]; exists []; reflexivity|]. intros [v X]. destruct u; [left; reflexivity|discriminate].
      - rewrite in_map_iff. split.
        + intros [<-|(v & <- & J)]; [exists (a :: w); reflexivity|]. apply IH in J. destruct J as [x ->]. exists x. reflexivity.
        + intros [v X]. destruct u as [|b u]; [left; reflexivity|]. cbn in X. injection X as <- X. right. exists u. split; [reflexivity|]. apply IH. exists v. exact X. }
    pose (P := sof ([] :: flat_map pre (ws1 ++ ws2))).
    assert (HP : forall u, In u P <-> u = [] \/ exists w, (In w ws1 \/ In w ws2) /\ is_prefix u w).
    { intros u. unfold P. rewrite In_sof. cbn [In]. rewrite in_flat_map. split.
      - intros [<-|(w & J & K)]; [left; reflexivity|right]. exists w. rewrite in_app_iff in J. rewrite PRE in K. auto.
      - intros [->|(w & J & K)]; [left; reflexivity|right]. exists w. rewrite in_app_iff, PRE. auto. }
    destruct (C46_trie_matching ws1 ws2 t1 t2 ord fuel P E1 E2 O L (NoDup_sof _) HP) as (a0 & a1 & a2 & a3 & Ea & A0 & A1 & A2 & A3).
    destruct (C46_trie_matching ws1 ws2 t1 t2 ord' fuel' P E1 E2 O' L' (NoDup_sof _) HP) as (b0 & b1 & b2 & b3 & Eb & B0 & B1 & B2 & B3).
    assert (U : forall (Q : list A -> Prop) n m, (exists K, NoDup K /\ length K = n /\ forall u, In u K <-> Q u) -> (exists K, NoDup K /\ length K = m /\ forall u, In u K <-> Q u) -> n = m).
    { intros Q n m (K & N1 & <- & H1) (K' & N2 & <- & H2). apply Nat.le_antisymm; apply NoDup_incl_length; try assumption; intros x J; [apply H2, H1, J|apply H1, H2, J]. }
    rewrite (U _ _ _ A0 B0), (U _ _ _ A1 B1), (U _ _ _ A2 B2), (U _ _ _ A3 B3) in Ea. eauto.
  Qed.

  (** moore_determination: the same automaton up to the numbers of the states *)
  Theorem C125_moore n ini (eps : A) ops complete opop opop' osym osym' fuel fuel' :
    let g := built n ini eps ops in
    valid_order opop -> valid_order opop' -> valid_order osym -> valid_order osym' ->
    2 ^ (length (nf_init g) + N_num_edges g) + 1 <= fuel -> 2 ^ (length (nf_init g) + N_num_edges g) + 1 <= fuel' ->
    exists d d', moore_determination g complete opop osym fuel = Some (d, Ok tt) /\ moore_determination g complete opop' osym' fuel' = Some (d', Ok tt) /\ renamed d d'.
  Proof.
    intros g P P' S S' L L'. assert (Y : 2 ^ length (universe g) <= 2 ^ (length (nf_init g) + N_num_edges g)) by (apply Nat.pow_le_mono_r; [lia|apply same_fuel]).
    destruct (moore_run g complete opop osym P S fuel ltac:(lia)) as (d & E & _ & _ & _ & m & q0s & I & RO & I0 & H0). destruct (moore_run g complete opop' osym' P' S' fuel' ltac:(lia)) as (d' & E' & _ & _ & _ & m' & q0s' & I' & RO' & I0' & H0').
    exists d, d'. split; [exact E|]. split; [exact E'|]. apply (moore_renamed g complete d d' m m' q0s q0s' I RO I0 I' RO' I0'). intros x. rewrite H0, H0'. tauto.
  Qed.

  (** hopcroft_minimize: the same *)
  Theorem C125_hopcroft n (ops : list (aop A)) fuel fuel' q0 (ord_w ord_w' : set_order (list nat)) (ord_p ord_p' : nat -> set_order (list nat)) (ord_a ord_a' : set_order A) (ord_l ord_l' : set_order (list nat)) (ord_q ord_q' : list nat -> list nat) :
    valid_order ord_w -> (forall k, valid_order (ord_p k)) -> valid_order ord_a -> valid_order ord_l -> (forall B, Permutation (ord_q B) B) ->
    valid_order ord_w' -> (forall k, valid_order (ord_p' k)) -> valid_order ord_a' -> valid_order ord_l' -> (forall B, Permutation (ord_q' B) B) ->
    disciplined (aa_init n) ops ->
    let g := fst (runs IA_call (IA_init n) ops) in
    (exists q, In q (IA_vertices g) /\ A_is_final (ia_base g) q = true) -> (exists q, In q (IA_vertices g) /\ A_is_final (ia_base g) q = false) ->
    In q0 (IA_vertices g) -> A_initial (ia_base g) = Some q0 -> length (IA_vertices g) <= fuel -> length (IA_vertices g) <= fuel' ->
    exists g1 g2 i1 i2, hopcroft_minimize fuel g ord_w ord_p ord_a ord_l ord_q = Some (g1, Ok tt) /\ hopcroft_minimize fuel' g ord_w' ord_p' ord_a' ord_l' ord_q' = Some (g2, Ok tt) /\
      A_initial (ia_base g1) = Some i1 /\ A_initial (ia_base g2) = Some i2 /\ isomorphic (ia_dfa g1 i1) (ia_dfa g2 i2).
  Proof.
    intros OW OP OA OL OQ OW' OP' OA' OL' OQ' D g HF HN V0 Q0 LF LF'.
    destruct (C47_hopcroft_minimize_partial ord_w ord_p ord_a ord_l ord_q OW OP OA OL OQ n ops fuel D HF HN (ex_intro _ q0 (conj V0 Q0)) LF) as (g1 & c1 & E1 & (i1 & Q1 & N1 & W1 & _) & _ & S1 & U1 & C1 & _).
    destruct (C47_hopcroft_minimize_partial ord_w' ord_p' ord_a' ord_l' ord_q' OW' OP' OA' OL' OQ' n ops fuel' D HF HN (ex_intro _ q0 (conj V0 Q0)) LF') as (g2 & c2 & E2 & (i2 & Q2 & N2 & W2 & _) & _ & S2 & U2 & C2 & _).
    fold g in E1, N1, S1, U1, C1, E2, N2, S2, U2, C2. exists g1, g2, i1, i2. split; [exact E1|]. split; [exact E2|]. split; [exact Q1|]. split; [exact Q2|].
    destruct (iarep_runs ops _ _ (iarep_init n) D) as [R _]. fold g in R. pose proof (iarep_wf g _ q0 R V0) as WG.
    apply (quotients (IA_vertices g) (IA_edges g) (A_is_final (ia_base g)) q0 V0) with (cls := c1) (cls' := c2).
    - exact (wf_det _ WG).
    - exact (wf_trans _ WG).
    - split; [exact W1|apply N1, Q0|intros q Vq; exact (proj1 (S1 q Vq))|intros q Vq; exact (proj2 (S1 q Vq))|exact U1|exact C1].
    - split; [exact W2|apply N2, Q0|intros q Vq; exact (proj1 (S2 q Vq))|intros q Vq; exact (proj2 (S2 q Vq))|exact U2|exact C2].
  Qed.

  (** revuz_minimize: the same states, transitions, initial and final states, and the same return value *)
  Theorem C125_revuz n (ops : list (aop A)) fuel fuel' ord ord' ord_v ord_v' : disciplined (aa_init n) ops -> valid_order ord -> valid_order ord' -> valid_order ord_v -> valid_order ord_v' ->
    let g := fst (runs IA_call (IA_init n) ops) in
    cycles_apart (aut_arc (IA_edges g)) -> length (IA_vertices g) <= fuel -> length (IA_vertices g) <= fuel' ->
    exists g1 g2 h, revuz_minimize fuel ord ord_v [] g = Some (g1, Ok h) /\ revuz_minimize fuel' ord' ord_v' [] g = Some (g2, Ok h) /\ same_automaton g1 g2.
  Proof.
    intros D O O' OV OV' g CA F F'. pose proof (C121_revuz_minimize n ops fuel ord ord_v D O OV CA F) as H. pose proof (C121_revuz_minimize n ops fuel' ord' ord_v' D O' OV' CA F') as H'. cbv zeta in H, H'. fold g in H, H'.
    destruct H as (g1 & h & E & Q & V & _ & _ & _ & _ & _ & HH & FI & T), H' as (g2 & h' & E' & Q' & V' & _ & _ & _ & _ & _ & HH' & FI' & T').
    assert (EV : forall q, In q (IA_vertices g1) <-> In q (IA_vertices g2)) by (intros q; rewrite V, V'; tauto).
    assert (h' = h) as ->.
    { destruct HH as [[-> N]|(v & k & Vv & Hk & -> & M)], HH' as [[-> N']|(v' & k' & Vv' & Hk' & -> & M')]; [reflexivity| | |].
      - exfalso. apply (N v' Vv'). destruct Hk' as [(l & LF & P) _]. exists k', l. auto.
      - exfalso. apply (N' v Vv). destruct Hk as [(l & LF & P) _]. exists k, l. auto.
      - pose proof (M v' k' Vv' Hk'). pose proof (M' v k Vv Hk). lia. }
    exists g1, g2, h. split; [exact E|]. split; [exact E'|]. split; [congruence|]. split; [exact EV|]. split; [intros q _; rewrite FI, FI'; reflexivity|]. intros [q r a]. rewrite T, T', !EV. tauto.
  Qed.

  (** prune_incidence_automaton: the same automaton *)
  Theorem C125_prune n (ops : list (aop A)) ord ord' : disciplined (aa_init n) ops -> valid_order ord -> valid_order ord' ->
    let g := fst (runs IA_call (IA_init n) ops) in
    exists bound g1 g2, (forall fuel, bound <= fuel -> prune_incidence_automaton fuel ord g = Some (g1, Ok tt) /\ prune_incidence_automaton fuel ord' g = Some (g2, Ok tt)) /\ same_automaton g1 g2.
  Proof.
    intros D O O' g. destruct (C42_prune_partial n ops ord D O) as (b & g1 & E & V & W & T & _ & _ & _ & Q & F & _). destruct (C42_prune_partial n ops ord' D O') as (b' & g2 & E' & V' & W' & T' & _ & _ & _ & Q' & F' & _).
    fold g in E, V, W, T, Q, F, E', V', W', T', Q', F'. exists (Nat.max b b'), g1, g2. split; [intros fuel L; split; [apply E|apply E']; lia|].
    assert (EV : forall q, In q (IA_vertices g1) <-> In q (IA_vertices g2)).
    { intros q. destruct (A_finals (ia_base g)) as [|x l]; [rewrite W, W'|rewrite V, V' by discriminate]; tauto. }
    split; [congruence|]. split; [exact EV|]. split; [intros q _; rewrite F, F'; reflexivity|]. intros e. rewrite T, T', !EV. tauto.
  Qed.
End T.

(** make_shortest_path: the path may change, its weight does not *)
Section D.
  Context {E : Type} {EE : EqDec E}.
  Theorem C125_shortest_path_partial (V : list nat) (out_edges : nat -> list E) (source target : E -> nat) (pmap_eweight : E -> res Z) (w : E -> Z) compare_arg (absorbing infty : Z) s fuel dist st fuel' ord ord' t d :
    compare_arg = None \/ compare_arg = Some Less -> (0 < infty <= absorbing)%Z -> In s V -> weighted_graph V out_edges source target pmap_eweight w -> positive_cycles V out_edges target w ->
    length V <= fuel -> length V <= fuel' -> dijkstra_shortest_paths V out_edges target pmap_eweight compare_arg (closed_plus absorbing) 0%Z infty no_stop fuel s dist [] [] = Some (st, Done) ->
    valid_order ord -> valid_order ord' -> In t V -> dget (d_dist st) t = Some d -> (d < infty)%Z ->
    exists p p', make_shortest_path source fuel' ord s t (d_preds st) = Some (Ok p) /\ make_shortest_path source fuel' ord' s t (d_preds st) = Some (Ok p') /\
      walk_of out_edges target s p t /\ walk_of out_edges target s p' t /\ weight w p = weight w p'.
  Proof.
    intros HC HI HS HG PC F F' R O O' Vt Ed Ld.
    destruct (C53_shortest_path V out_edges source target pmap_eweight w compare_arg absorbing infty s HC HI HS HG fuel dist st fuel' ord t d F R O PC F' Vt Ed Ld) as (p & E1 & S1 & W1).
    destruct (C53_shortest_path V out_edges source target pmap_eweight w compare_arg absorbing infty s HC HI HS HG fuel dist st fuel' ord' t d F R O' PC F' Vt Ed Ld) as (p' & E2 & S2 & W2).
    exists p, p'. split; [exact E1|]. split; [exact E2|]. split; [apply S1|]. split; [apply S2|]. congruence.
  Qed.
End D.

(** ** Refutations *)
Definition rev_ord {X} : set_order X := fun _ l => rev l.
Lemma id_valid X : valid_order (fun _ (l : list X) => l). Proof. intros n l. apply Permutation_refl. Qed.
Lemma rev_valid X : valid_order (@rev_ord X). Proof. intros n l. apply Permutation_sym, Permutation_rev. Qed.

(** g1 has one state and reads 1 and 2 for ever; g2 accepts the words that start with 1 *)
Definition un_ops1 : list (aop nat) := [AAddEdge 0 0 1; AAddEdge 0 0 2].
Definition un_ops2 : list (aop nat) := [AAddEdge 0 1 1; AAddEdge 0 2 2; AAddEdge 1 1 1; AAddEdge 1 1 2; AAddEdge 2 2 1; AAddEdge 2 2 2; ASetFinal 1 true].
Definition un_g1 := fst (runs A_call (A_init 1) un_ops1).
Definition un_g2 := fst (runs A_call (A_init 3) un_ops2).
Definition un_d (ord : set_order nat) : aut nat := match deterministic_union un_g1 un_g2 ord 40 with Some (d, _) => d | None => A_init 0 end.
(** deterministic_union: with one order of iteration the result accepts no word at all, with the other one it accepts all the words on 1 and 2. *)
Theorem C125_union_refuted : exists d d', deterministic_union un_g1 un_g2 (fun _ l => l) 40 = Some (d, Ok tt) /\ deterministic_union un_g1 un_g2 rev_ord 40 = Some (d', Ok tt) /\
  (forall w, A_accepts d w = false) /\ (forall w, Forall (fun a => a = 1 \/ a = 2) w -> A_accepts d' w = true).
Proof.
  exists (un_d (fun _ l => l)), (un_d rev_ord). split; [vm_compute; reflexivity|]. split; [vm_compute; reflexivity|]. split.
  - assert (G : forall w, A_delta_word (un_d (fun _ l => l)) (Some 2) w = Some 2 \/ A_delta_word (un_d (fun _ l => l)) (Some 2) w = None).
    { induction w as [|a w IH]; [left; reflexivity|]. cbn [A_delta_word]. destruct (A_delta (un_d (fun _ l => l)) 2 a) as [q|] eqn:D.
      - assert (q = 2) as ->; [|exact IH]. destruct a as [|[|[|a]]]; vm_compute in D; congruence.
      - right. destruct w; reflexivity. }
    intros w. unfold A_accepts. assert (E0 : A_initial (un_d (fun _ l => l)) = Some 2) by (vm_compute; reflexivity). rewrite E0. destruct (G w) as [-> | ->]; vm_compute; reflexivity.
  - assert (G : forall w, Forall (fun a => a = 1 \/ a = 2) w -> A_delta_word (un_d rev_ord) (Some 2) w = Some 2).
    { induction 1 as [|a w Ha _ IH]; [reflexivity|]. cbn [A_delta_word]. assert (D : A_delta (un_d rev_ord) 2 a = Some 2) by (destruct Ha as [-> | ->]; vm_compute; reflexivity). rewrite D. exact IH. }
    intros w Hw. unfold A_accepts. assert (E0 : A_initial (un_d rev_ord) = Some 2) by (vm_compute; reflexivity). rewrite E0, (G w Hw). vm_compute. reflexivity.
Qed.
(** make_shortest_path: two orders give two different paths, and when a cycle weighs 0 one order gives a path and the other one never ends. *)
Theorem C125_path_refuted : exists st p p', ex_run None = Some (st, Done) /\ p <> p' /\
  make_shortest_path Graph.source 5 (fun _ l => l) 0 3 (d_preds st) = Some (Ok p) /\ make_shortest_path Graph.source 5 rev_ord 0 3 (d_preds st) = Some (Ok p').
Proof. do 3 eexists. split; [vm_compute; reflexivity|]. split; [|split; vm_compute; reflexivity]. discriminate. Qed.
Theorem C125_endless_refuted : exists st, 
  weighted_graph zc_V zc_out Graph.source Graph.target (fun e => Ok (distinguisher e)) distinguisher /\
  dijkstra_shortest_paths zc_V zc_out Graph.target (fun e => Ok (distinguisher e)) None (closed_plus 100) 0%Z 100%Z no_stop 3 0 [] [] [] = Some (st, Done) /\
  make_shortest_path Graph.source 2 (fun _ l => l) 0 1 (d_preds st) = Some (Ok [Edge 0 1 1%Z]) /\ exists ord : set_order (edge Z), valid_order ord /\ forall fuel, make_shortest_path Graph.source fuel ord 0 1 (d_preds st) = None.
Proof.
  destruct C53_zero_cycle_refuted as (ord & st & O & W & R & _ & N). exists st. split; [exact W|]. split; [exact R|]. split; [|exists ord; auto].
  assert (X : option_map (fun x => d_preds (fst x)) (Some (st, Done)) = Some [(1, [Edge 0 1 1%Z; Edge 2 1 0%Z]); (2, [Edge 1 2 0%Z])]).
  { rewrite <- R. vm_compute. reflexivity. }
  cbn in X. injection X as ->. vm_compute. reflexivity.
Qed.

(** ** Examples: the hypotheses hold, and the two orders do give different lists *)
Example C125_moore_example : let g := built 4 [0] 9 ex_moore in
  2 ^ (length (nf_init g) + N_num_edges g) + 1 <= 300 /\
  match moore_determination g true (fun _ l => l) (fun _ l => l) 300, moore_determination g true rev_ord rev_ord 300 with
  | Some (d, Ok _), Some (d', Ok _) => A_edges d <> A_edges d' /\ length (A_vertices d) = length (A_vertices d')
  | _, _ => False
  end.
Proof. split; [vm_compute; repeat constructor|]. vm_compute. split; [discriminate|reflexivity]. Qed.
Example C125_hopcroft_example : exists g1 g2 i1 i2, hopcroft_minimize 5 THopcroft.ex_g (fun _ l => l) (fun _ _ l => l) (fun _ l => l) (fun _ l => l) (fun B => B) = Some (g1, Ok tt) /\
  hopcroft_minimize 9 THopcroft.ex_g rev_ord (fun _ => rev_ord) rev_ord rev_ord (@rev nat) = Some (g2, Ok tt) /\
  A_initial (ia_base g1) = Some i1 /\ A_initial (ia_base g2) = Some i2 /\ isomorphic (ia_dfa g1 i1) (ia_dfa g2 i2).
Proof.
  pose proof (C125_hopcroft 5 THopcroft.ex_ops 5 9 0 (fun _ l => l) rev_ord (fun _ _ l => l) (fun _ => rev_ord) (fun _ l => l) rev_ord (fun _ l => l) rev_ord (fun B => B) (@rev nat)
    (id_valid _) (fun _ => id_valid _) (id_valid _) (id_valid _) (fun B => Permutation_refl B) (rev_valid _) (fun _ => rev_valid _) (rev_valid _) (rev_valid _) (fun B => Permutation_sym (Permutation_rev B)) THopcroft.ex_disciplined) as TH.
  assert (EG : fst (runs IA_call (IA_init 5) THopcroft.ex_ops) = THopcroft.ex_g) by (unfold THopcroft.ex_g; reflexivity). cbv zeta in TH. rewrite EG in TH. apply TH; clear TH EG.
  - exists 3. vm_compute. auto 10.
  - exists 0. vm_compute. auto.
  - vm_compute. auto.
  - reflexivity.
  - vm_compute. lia.
  - vm_compute. lia.
Qed.
Example C125_revuz_example : exists g1 g2 h, revuz_minimize 7 (fun _ l => l) (fun _ l => l) [] ca_g = Some (g1, Ok h) /\ revuz_minimize 7 rev_ord rev_ord [] ca_g = Some (g2, Ok h) /\ same_automaton g1 g2.
Proof.
  pose proof (C125_revuz 7 ca_ops 7 7 (fun _ l => l) rev_ord (fun _ l => l) rev_ord ca_disciplined (id_valid _) (rev_valid _) (id_valid _) (rev_valid _)) as TH.
  assert (EG : fst (runs IA_call (IA_init 7) ca_ops) = ca_g) by (unfold ca_g; reflexivity). cbv zeta in TH. rewrite EG in TH. apply TH; [exact ca_apart|vm_compute; lia|vm_compute; lia].
Qed.
Example C125_prune_example : disciplined (aa_init 5) (prune_ex true) /\ exists g1 g2,
  prune_incidence_automaton 50 (fun _ l => l) (fst (runs IA_call (IA_init 5) (prune_ex true))) = Some (g1, Ok tt) /\
  prune_incidence_automaton 50 rev_ord (fst (runs IA_call (IA_init 5) (prune_ex true))) = Some (g2, Ok tt) /\ IA_vertices g1 = [0; 1; 2] /\ IA_vertices g2 = [0; 1; 2].
Proof. split; [vm_compute; intuition (congruence || auto 10)|]. do 2 eexists. split; [vm_compute; reflexivity|]. split; [vm_compute; reflexivity|]. split; vm_compute; reflexivity. Qed.
Example C125_products_example : (* the order does change the numbers of the states *)
  A_initial un_g1 <> None /\ A_initial un_g2 <> None /\
  deterministic_inclusion un_g1 un_g2 (fun _ l => l) 40 = Some (Some 1%Z) /\ deterministic_inclusion un_g1 un_g2 rev_ord 40 = Some (Some 1%Z) /\
  match deterministic_intersection un_g2 un_g2 (fun _ l => l) 60, deterministic_intersection un_g2 un_g2 rev_ord 60 with
  | Some (d, Ok _), Some (d', Ok _) => A_delta_word d (Some 0) [1] = Some 1 /\ A_delta_word d' (Some 0) [1] = Some 2 /\ A_accepts d [1] = true /\ A_accepts d' [1] = true
  | _, _ => False
  end.
Proof. split; [vm_compute; discriminate|]. split; [vm_compute; discriminate|]. split; [vm_compute; reflexivity|]. split; [vm_compute; reflexivity|]. vm_compute. auto. Qed.
Example C125_union_example : (* the hypotheses of C125_union_partial hold on a.b and a.c *)
  let g1 := fst (runs A_call (A_init 3) [AAddEdge 0 1 1; AAddEdge 1 2 2; ASetFinal 2 true]) in
  let g2 := fst (runs A_call (A_init 3) [AAddEdge 0 1 1; AAddEdge 1 2 3; ASetFinal 2 true]) in
  (forall w, A_delta_word g1 (A_initial g1) w = A_initial g1 \/ A_delta_word g2 (A_initial g2) w = A_initial g2 ->
    A_delta_word g1 (A_initial g1) w = A_initial g1 /\ A_delta_word g2 (A_initial g2) w = A_initial g2) /\
  (A_num_edges g1 + 1) * (A_num_edges g2 + 1) + 2 <= 30.
Proof.
  intros g1 g2. assert (D1 : forall q a, A_delta g1 q a <> Some 0) by (intros [|[|[|q]]] [|[|[|a]]]; vm_compute; discriminate).
  assert (D2 : forall q a, A_delta g2 q a <> Some 0) by (intros [|[|[|q]]] [|[|[|[|a]]]]; vm_compute; discriminate).
  assert (G : forall (g : aut nat), (forall q a, A_delta g q a <> Some 0) -> forall w q, w <> [] -> A_delta_word g (Some q) w <> Some 0).
  { intros g D. induction w as [|a w IH]; intros q NE; [contradiction|]. cbn [A_delta_word]. destruct (A_delta g q a) as [r|] eqn:Dr; [|destruct w; discriminate].
    destruct w as [|b w]; [cbn; intros [= ->]; apply (D q a Dr)|]. apply IH. discriminate. }
  split; [|vm_compute; repeat constructor]. intros w. destruct w as [|a w]; [auto|]. change (A_initial g1) with (Some 0). change (A_initial g2) with (Some 0).
  intros [X|X]; exfalso; [apply (G g1 D1 (a :: w) 0)|apply (G g2 D2 (a :: w) 0)]; try discriminate; exact X.
Qed.
Example C125_tries_example :
  let t1 := fst (T_inserts T_init [[1]; [1; 2; 3]]) in let t2 := fst (T_inserts T_init [[]; [2]; [1; 2; 4]]) in
  trie_matching t1 t2 (fun _ l => l) 60 = Some ([1; 2; 3; 0], Ok tt) /\ trie_matching t1 t2 rev_ord 60 = Some ([1; 2; 3; 0], Ok tt) /\
  match T_fusion t2 (fun _ l => l) 100 t1, T_fusion t2 rev_ord 100 t1 with
  | Some (t, Ok _), Some (t', Ok _) => A_accepts t [1; 2; 4] = true /\ A_accepts t' [1; 2; 4] = true
  | _, _ => False
  end.
Proof. split; [vm_compute; reflexivity|]. split; [vm_compute; reflexivity|]. vm_compute. auto. Qed.

Print Assumptions C125_inclusion.
Print Assumptions C125_intersection.
Print Assumptions C125_union_partial.
Print Assumptions C125_fusion.
Print Assumptions C125_matching.
Print Assumptions C125_moore.
Print Assumptions C125_hopcroft.
Print Assumptions C125_revuz.
Print Assumptions C125_prune.
Print Assumptions C125_shortest_path_partial.
Print Assumptions C125_union_refuted.
Print Assumptions C125_path_refuted.
Print Assumptions C125_endless_refuted.
