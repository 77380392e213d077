(** Theorems C126 and C127: hopcroft_minimize and revuz_minimize agree on acyclic automata, and pruning or minimising twice is doing it once. *)
From Coq Require Import ZArith.
From Verif Require Import Graph GraphProofs Automaton AutomatonSpec AutomatonProofs AutomatonProofs2 Search Prune TPrune Revuz RevuzSpec RevuzProofs RevuzProofs2 RevuzCycleSpec TRevuz TRevuzCycle Hopcroft THopcroft MinSpec MinProofs OrderSpec OrderProofs TOrder Base BaseProofs.
Open Scope nat_scope.

Section T.
  Context {A : Type} {EA : EqDec A}.

  Lemma twins_refl (g : iaut A) x : twins g x x.
  Proof. split; [intros w|intros z _ w]; tauto. Qed.
  Lemma twins_sym (g : iaut A) x y : twins g x y -> twins g y x.
  Proof. intros [H K]. split; [intros w; destruct (H w); split; symmetry; assumption|intros z Z w; symmetry; apply K, Z]. Qed.
  Lemma twins_trans (g : iaut A) x y z : twins g x y -> twins g y z -> twins g x z.
  Proof. intros [H K] [H' K']. split; [intros w; destruct (H w), (H' w); tauto|intros t Z w; rewrite (K t Z), (K' t Z); tauto]. Qed.

  (** hopcroft_minimize and revuz_minimize return the same automaton, up to the numbers of the states *)
  Theorem C126_agree_partial n (ops : list (aop A)) fuel fuel' q0 (ord_w : set_order (list nat)) (ord_p : nat -> set_order (list nat)) (ord_a : set_order A) (ord_l : set_order (list nat)) (ord_q : list nat -> list nat) ord ord_v :
    valid_order ord_w -> (forall k, valid_order (ord_p k)) -> valid_order ord_a -> valid_order ord_l -> (forall B, Permutation (ord_q B) B) -> valid_order ord -> valid_order ord_v ->
    disciplined (aa_init n) ops ->
    let g := fst (runs IA_call (IA_init n) ops) in
    acyclic (aut_arc (IA_edges g)) ->
    (exists q, In q (IA_vertices g) /\ A_is_final (ia_base g) q = true) -> (exists q, In q (IA_vertices g) /\ A_is_final (ia_base g) q = false) ->
    In q0 (IA_vertices g) -> A_initial (ia_base g) = Some q0 -> (forall q, In q (IA_vertices g) -> q < q0 -> ~ equiv_states g q q0) ->
    length (IA_vertices g) <= fuel -> length (IA_vertices g) <= fuel' ->
    exists g1 g2 h i1, hopcroft_minimize fuel g ord_w ord_p ord_a ord_l ord_q = Some (g1, Ok tt) /\ revuz_minimize fuel' ord ord_v [] g = Some (g2, Ok h) /\
      A_initial (ia_base g1) = Some i1 /\ A_initial (ia_base g2) = Some q0 /\ isomorphic (ia_dfa g1 i1) (ia_dfa g2 q0).
  Proof.
    intros OW OP OA OL OQ O OV D g AC HF HN V0 Q0 FST LF LF'.
    destruct (iarep_runs ops _ _ (iarep_init n) D) as [R _]. fold g in R. set (s := fst (runs ia_step (aa_init n) ops)) in R. clearbody g s. clear D ops n.
    destruct (hopcroft_rep ord_w ord_p ord_a ord_l ord_q OW OP OA OL OQ g s fuel R HF HN (ex_intro _ q0 (conj V0 Q0)) LF) as (g1 & c1 & _ & _ & E1 & (i1 & Q1 & N1 & W1 & _) & _ & S1 & U1 & C1 & _).
    pose proof (iarep_wf g _ q0 R V0) as WG. pose proof (wf_det _ WG) as DET. pose proof (wf_trans _ WG) as CL. cbn [d_trans d_states ia_dfa] in DET, CL.
    assert (ENDS : forall z, ends (aut_arc (IA_edges g)) z).
    { intros z. destruct (in_dec Nat.eq_dec z (IA_vertices g)) as [Vz|NV].
      - destruct (heights_of g s ord_v [] fuel' R AC OV LF') as (r & m & _ & HT & _). destruct (HT z Vz) as (k & _ & [(l & L & P) _] & _). exists k, l. auto.
      - exists 0, z. split; [|constructor]. intros u [a J]. apply NV, (CL _ _ _ J). }
    assert (CA : cycles_apart (aut_arc (IA_edges g))) by (intros k v P; destruct (AC k v P)).
    assert (TW : forall x y, equiv_states g x y -> twins g x y) by (intros x y EQ; split; [exact EQ|]; intros z NE; destruct (NE (ENDS z))).
    destruct (revuz_rep g s fuel' ord ord_v R O OV CA LF') as (g2 & h & s2 & (R2 & _) & E2 & Q2 & V2 & KEEP & SAME & _).
    exists g1, g2, h, i1. split; [exact E1|]. split; [exact E2|]. split; [exact Q1|]. split; [congruence|].
    assert (K0 : In q0 (IA_vertices g2)) by (apply V2; split; [exact V0|]; intros q Vq L [EQ _]; exact (FST q Vq L EQ)).
    (* the kept state of each class *)
    assert (UNI : forall x y, In x (IA_vertices g2) -> In y (IA_vertices g2) -> twins g x y -> x = y).
    { intros x y Vx Vy EQ. apply V2 in Vx, Vy. destruct Vx as [Vx Mx], Vy as [Vy My]. destruct (Nat.lt_trichotomy x y) as [L|[L|L]]; [destruct (My x Vx L EQ)|exact L|destruct (Mx y Vy L (twins_sym _ _ _ EQ))]. }
    assert (CH : exists c2, forall q, In q (IA_vertices g) -> In (c2 q) (IA_vertices g2) /\ twins g (c2 q) q).
    { clear -KEEP. revert KEEP. generalize (IA_vertices g). intros l. induction l as [|x l IH]; intros KEEP; [exists (fun q => q); intros q []|].
      destruct IH as [c2 H]; [intros q I; apply KEEP; right; exact I|]. destruct (KEEP x (or_introl eq_refl)) as (y & Vy & _ & EQ).
      exists (fun q => if q =? x then y else c2 q). intros q [<-|I]; [rewrite Nat.eqb_refl; auto|]. destruct (Nat.eqb_spec q x) as [->|]; [auto|apply H, I]. }
    destruct CH as [c2 C2].
    apply (quotients (IA_vertices g) (IA_edges g) (A_is_final (ia_base g)) q0 V0) with (cls := c1) (cls' := c2).
    - exact DET.
    - exact CL.
    - split; [exact W1|apply N1, Q0|intros q Vq; exact (proj1 (S1 q Vq))|intros q Vq; exact (proj2 (S1 q Vq))|exact U1|exact C1].
    - split.
      + apply (iarep_wf g2 s2 q0 R2 K0).
      + cbn [d_init ia_dfa]. destruct (C2 q0 V0) as [K EQ]. apply UNI; assumption.
      + intros q Vq. apply (C2 q Vq).
      + intros q Vq w. destruct (C2 q Vq) as [K [EQ _]]. destruct (SAME _ K w) as [H1 H2], (EQ w) as [H3 H4]. cbn [d_trans d_final ia_dfa]. unfold accepted in *. rewrite H1, H2, H3, H4. tauto.
      + intros i Vi. exists i. assert (Vg : In i (IA_vertices g)) by (apply V2, Vi). split; [exact Vg|]. destruct (C2 i Vg) as [K EQ]. apply UNI; assumption.
      + intros p q Vp Vq. destruct (C2 p Vp) as [Kp Ep], (C2 q Vq) as [Kq Eq]. split.
        * intros X. rewrite X in Ep. exact (proj1 (twins_trans _ _ _ _ (twins_sym _ _ _ Ep) Eq)).
        * intros X. apply UNI; [exact Kp|exact Kq|]. apply (twins_trans _ _ p); [exact Ep|]. apply (twins_trans _ _ q); [apply TW; exact X|apply twins_sym, Eq].
  Qed.

  (** revuz_minimize twice: the second call removes nothing, changes no transition and returns the same height *)
  Theorem C127_revuz n (ops : list (aop A)) fuel fuel' ord ord' ord_v ord_v' : disciplined (aa_init n) ops -> valid_order ord -> valid_order ord' -> valid_order ord_v -> valid_order ord_v' ->
    let g := fst (runs IA_call (IA_init n) ops) in
    cycles_apart (aut_arc (IA_edges g)) -> length (IA_vertices g) <= fuel -> length (IA_vertices g) <= fuel' ->
    exists g1 g2 h, revuz_minimize fuel ord ord_v [] g = Some (g1, Ok h) /\ revuz_minimize fuel' ord' ord_v' [] g1 = Some (g2, Ok h) /\ same_automaton g1 g2.
  Proof.
    intros D O O' OV OV' g CA F F'. destruct (iarep_runs ops _ _ (iarep_init n) D) as [R _]. fold g in R. set (s := fst (runs ia_step (aa_init n) ops)) in R. clearbody g s. clear D ops n.
    destruct (revuz_rep g s fuel ord ord_v R O OV CA F) as (g1 & h & s1 & (R1 & CA1 & DEAD & PATH & HT & HX) & E1 & Q1 & V1 & _ & SAME & _ & _ & _ & HH & F1 & T1).
    assert (SUB : incl (IA_vertices g1) (IA_vertices g)) by (intros q Vq; apply V1, Vq).
    assert (ND1 : NoDup (IA_vertices g1)) by (unfold IA_vertices; rewrite (obs_vertices _ _ (proj1 R1)); apply (iarep_nodup g1 s1 R1)).
    pose proof (NoDup_incl_length ND1 SUB) as LE.
    destruct (revuz_rep g1 s1 fuel' ord' ord_v' R1 O' OV' CA1 ltac:(lia)) as (g2 & h2 & s2 & _ & E2 & Q2 & V2 & _ & _ & _ & _ & _ & HH2 & F2 & T2).
    assert (TW : forall x y, In x (IA_vertices g1) -> In y (IA_vertices g1) -> twins g1 x y -> twins g x y).
    { intros x y Vx Vy [EQ PZ]. split.
      - intros w. destruct (EQ w), (SAME x Vx w), (SAME y Vy w). unfold accepted in *. tauto.
      - intros z NE w. rewrite (PATH x z w Vx NE), (PATH y z w Vy NE). apply PZ. apply DEAD; [|exact NE].
        destruct (in_dec Nat.eq_dec z (IA_vertices g)) as [|NV]; [assumption|]. destruct NE. exists 0, z. split; [|constructor]. intros u J. apply NV, (arc_in g s z u R J). }
    assert (UNI : forall x y, In x (IA_vertices g1) -> In y (IA_vertices g1) -> twins g x y -> x = y).
    { intros x y Vx Vy EQ. apply V1 in Vx, Vy. destruct Vx as [Vx Mx], Vy as [Vy My]. destruct (Nat.lt_trichotomy x y) as [L|[L|L]]; [destruct (My x Vx L EQ)|exact L|destruct (Mx y Vy L (twins_sym _ _ _ EQ))]. }
    assert (EV : forall q, In q (IA_vertices g1) <-> In q (IA_vertices g2)).
    { intros q. rewrite V2. split; [|tauto]. intros Vq. split; [exact Vq|]. intros q' V' L' EQ. pose proof (UNI q' q V' Vq (TW _ _ V' Vq EQ)). lia. }
    assert (h2 = h) as ->.
    { destruct HH as [[-> N]|(v & k & Vv & Hk & -> & M)], HH2 as [[-> N']|(v' & k' & Vv' & Hk' & -> & M')]; [reflexivity| | |].
      - exfalso. apply (DEAD v' (SUB _ Vv') (N v' (SUB _ Vv'))). destruct Hk' as [(l & LF & P) _]. exists k', l. auto.
      - exfalso. destruct (HX v k Vv Hk) as (q & Vq & Hq). apply (HT q k Vq) in Hq. apply (N' q Vq). destruct Hq as [(l & LF & P) _]. exists k, l. auto.
      - destruct (HX v k Vv Hk) as (q & Vq & Hq). apply (HT q k Vq) in Hq. pose proof (M' q k Vq Hq). apply (HT v' k' Vv') in Hk'. pose proof (M v' k' (SUB _ Vv') Hk'). lia. }
    exists g1, g2, h. split; [exact E1|]. split; [exact E2|]. split; [congruence|]. split; [exact EV|]. split; [intros q _; rewrite F2; reflexivity|].
    intros [q r a]. rewrite T2, <- !EV. split.
    - intros J. pose proof (proj1 (T1 q r a) J) as (Vq & Vr & _). split; [exact Vq|]. split; [exact Vr|]. exists r. split; [exact J|apply twins_refl].
    - intros (Vq & Vr & r0 & J & EQ). pose proof (proj1 (T1 q r0 a) J) as (_ & Vr0 & _). rewrite (UNI r r0 Vr Vr0 (TW _ _ Vr Vr0 EQ)). exact J.
  Qed.

  (** hopcroft_minimize twice: the second result is the first one up to the numbers of the states *)
  Theorem C127_hopcroft n (ops : list (aop A)) fuel fuel' q0 (ord_w ord_w' : set_order (list nat)) (ord_p ord_p' : nat -> set_order (list nat)) (ord_a ord_a' : set_order A) (ord_l ord_l' : set_order (list nat)) (ord_q ord_q' : list nat -> list nat) :
    valid_order ord_w -> (forall k, valid_order (ord_p k)) -> valid_order ord_a -> valid_order ord_l -> (forall B, Permutation (ord_q B) B) ->
    valid_order ord_w' -> (forall k, valid_order (ord_p' k)) -> valid_order ord_a' -> valid_order ord_l' -> (forall B, Permutation (ord_q' B) B) ->
    disciplined (aa_init n) ops ->
    let g := fst (runs IA_call (IA_init n) ops) in
    (exists q, In q (IA_vertices g) /\ A_is_final (ia_base g) q = true) -> (exists q, In q (IA_vertices g) /\ A_is_final (ia_base g) q = false) ->
    In q0 (IA_vertices g) -> A_initial (ia_base g) = Some q0 -> length (IA_vertices g) <= fuel -> length (IA_vertices g) <= fuel' ->
    exists g1 g2 i1 i2, hopcroft_minimize fuel g ord_w ord_p ord_a ord_l ord_q = Some (g1, Ok tt) /\ hopcroft_minimize fuel' g1 ord_w' ord_p' ord_a' ord_l' ord_q' = Some (g2, Ok tt) /\
      A_initial (ia_base g1) = Some i1 /\ A_initial (ia_base g2) = Some i2 /\ isomorphic (ia_dfa g1 i1) (ia_dfa g2 i2).
  Proof.
    intros OW OP OA OL OQ OW' OP' OA' OL' OQ' D g HF HN V0 Q0 LF LF'.
    destruct (iarep_runs ops _ _ (iarep_init n) D) as [R _]. fold g in R. set (s := fst (runs ia_step (aa_init n) ops)) in R. clearbody g s. clear D ops n.
    destruct (hopcroft_rep ord_w ord_p ord_a ord_l ord_q OW OP OA OL OQ g s fuel R HF HN (ex_intro _ q0 (conj V0 Q0)) LF) as (g1 & c1 & s1 & R1 & E1 & (i1 & Q1 & N1 & W1 & _) & _ & S1 & U1 & C1 & _).
    assert (VI : In i1 (IA_vertices g1)) by exact (wf_init _ W1).
    assert (FIN : forall q, In q (IA_vertices g) -> A_is_final (ia_base g1) (c1 q) = A_is_final (ia_base g) q) by (intros q Vq; apply alike_final with (E1 := IA_edges g1) (E2 := IA_edges g); exact (proj2 (S1 q Vq))).
    assert (HF1 : exists q, In q (IA_vertices g1) /\ A_is_final (ia_base g1) q = true) by (destruct HF as (q & Vq & Fq); exists (c1 q); split; [apply (S1 q Vq)|rewrite FIN; assumption]).
    assert (HN1 : exists q, In q (IA_vertices g1) /\ A_is_final (ia_base g1) q = false) by (destruct HN as (q & Vq & Fq); exists (c1 q); split; [apply (S1 q Vq)|rewrite FIN; assumption]).
    assert (LE : length (IA_vertices g1) <= length (IA_vertices g)).
    { rewrite <- (map_length c1 (IA_vertices g)). apply NoDup_incl_length; [exact (wf_nodup _ W1)|]. intros i Vi. destruct (U1 i Vi) as (q & Vq & <-). apply in_map, Vq. }
    destruct (hopcroft_rep ord_w' ord_p' ord_a' ord_l' ord_q' OW' OP' OA' OL' OQ' g1 s1 fuel' R1 HF1 HN1 (ex_intro _ i1 (conj VI Q1)) ltac:(lia)) as (g2 & c2 & s2 & R2 & E2 & (i2 & Q2 & N2 & W2 & _) & _ & S2 & U2 & C2 & _).
    exists g1, g2, i1, i2. split; [exact E1|]. split; [exact E2|]. split; [exact Q1|]. split; [exact Q2|].
    apply (quotients (IA_vertices g1) (IA_edges g1) (A_is_final (ia_base g1)) i1 VI) with (cls := fun q => q) (cls' := c2).
    - exact (wf_det _ W1).
    - exact (wf_trans _ W1).
    - split; [exact W1|reflexivity|auto|intros q _ w; cbn; tauto|eauto|].
      intros i j Vi Vj. split; [intros -> w; tauto|]. intros AL. destruct (U1 i Vi) as (p & Vp & <-), (U1 j Vj) as (q & Vq & <-). apply (C1 p q Vp Vq). intros w. destruct (AL w) as [A1 A2], (proj2 (S1 p Vp) w) as [B1 B2], (proj2 (S1 q Vq) w) as [D1 D2]. unfold accepted in *. rewrite <- B1, <- B2, <- D1, <- D2. auto.
    - split; [exact W2|apply N2, Q1|intros q Vq; exact (proj1 (S2 q Vq))|intros q Vq; exact (proj2 (S2 q Vq))|exact U2|exact C2].
  Qed.

  (** prune_incidence_automaton twice: the second call removes nothing *)
  Theorem C127_prune n (ops : list (aop A)) ord ord' : disciplined (aa_init n) ops -> valid_order ord -> valid_order ord' ->
    let g := fst (runs IA_call (IA_init n) ops) in
    exists bound g1 g2, (forall fuel, bound <= fuel -> prune_incidence_automaton fuel ord g = Some (g1, Ok tt) /\ prune_incidence_automaton fuel ord' g1 = Some (g2, Ok tt)) /\ same_automaton g1 g2.
  Proof.
    intros D O O' g. destruct (iarep_runs ops _ _ (iarep_init n) D) as [R _]. fold g in R. set (s := fst (runs ia_step (aa_init n) ops)) in R. clearbody g s. clear D ops n.
    destruct (prune_rep g s ord R O) as (b & g1 & s1 & R1 & E1 & V1 & W1 & T1 & _ & _ & _ & Q1 & F1 & _).
    destruct (prune_rep g1 s1 ord' R1 O') as (b' & g2 & s2 & R2 & E2 & V2 & W2 & T2 & _ & _ & _ & Q2 & F2 & _).
    exists (Nat.max b b'), g1, g2. split; [intros fuel L; split; [apply E1|apply E2]; lia|].
    assert (SUB : forall q, In q (IA_vertices g1) -> In q (IA_vertices g) /\ reachable g q) by (intros q; destruct (A_finals (ia_base g)) as [|x l]; [rewrite W1 by reflexivity|rewrite V1 by discriminate]; tauto).
    assert (CL : forall e, In e (IA_edges g) -> In (source e) (IA_vertices g) /\ In (target e) (IA_vertices g)).
    { intros [q r a] J. apply (iarep_edges _ _ R) in J. unfold IA_vertices. rewrite (obs_vertices _ _ (proj1 R)). apply (iarep_closed g s R _ _ _ J). }
    (* a path whose last state is kept, from a reachable state, is a path of the pruned automaton *)
    assert (KEEP : forall q w r, path (IA_edges g) q w r -> reachable g q -> In r (IA_vertices g1) -> path (IA_edges g1) q w r /\ (w = [] \/ In q (IA_vertices g1))).
    { induction 1 as [q|q a r w t J P IH]; [intros; split; [constructor|left; reflexivity]|]. intros RC Vt.
      assert (RC' : reachable g r). { destruct RC as (x & w' & X1 & X2). exists x, (w' ++ [a]). split; [exact X1|]. eapply path_app; [exact X2|]. econstructor; [exact J|constructor]. }
      destruct (IH RC' Vt) as [P' Vr]. destruct (CL _ J) as [Gq Gr]. cbn [source target] in Gq, Gr.
      assert (Kr : In r (IA_vertices g1)) by (destruct Vr as [->|Vr]; [inversion P; subst; exact Vt|exact Vr]).
      assert (Kq : In q (IA_vertices g1)).
      { destruct (A_finals (ia_base g)) as [|x l]eqn:EF; [apply W1; auto|]. apply V1; [discriminate|]. split; [exact Gq|]. split; [exact RC|].
        apply V1 in Kr; [|discriminate]. destruct Kr as (_ & _ & w' & f & PF & IF). exists (a :: w'), f. split; [econstructor; eassumption|exact IF]. }
      split; [|right; exact Kq]. econstructor; [|exact P']. apply T1. cbn [source target]. auto. }
    assert (RE : forall q, In q (IA_vertices g1) -> reachable g1 q).
    { intros q Vq. destruct (SUB q Vq) as [_ (q0 & w & I & P)]. exists q0, w. split; [congruence|]. apply (KEEP _ _ _ P); [exists q0, []; split; [exact I|constructor]|exact Vq]. }
    assert (CO : A_finals (ia_base g) <> [] -> forall q, In q (IA_vertices g1) -> coreachable g1 q).
    { intros NE q Vq. pose proof (proj1 (V1 NE q) Vq) as (_ & RQ & w & f & P & IF). apply filter_In in IF. destruct IF as [Vf Ff].
      assert (RF : reachable g f). { destruct RQ as (x & w' & X1 & X2). exists x, (w' ++ w). split; [exact X1|]. eapply path_app; eassumption. }
      assert (Kf : In f (IA_vertices g1)) by (apply (V1 NE); split; [exact Vf|]; split; [exact RF|]; exists [], f; split; [constructor|apply filter_In; auto]).
      exists w, f. split; [apply (KEEP _ _ _ P RQ Kf)|]. apply filter_In. split; [exact Kf|]. rewrite F1. exact Ff. }
    assert (EV : forall q, In q (IA_vertices g1) <-> In q (IA_vertices g2)).
    { intros q. destruct (A_finals (ia_base g1)) as [|x l] eqn:EF.
      - rewrite W2 by reflexivity. split; [intros Vq; split; [exact Vq|apply RE, Vq]|tauto].
      - rewrite V2 by discriminate. split; [|tauto]. intros Vq. split; [exact Vq|]. split; [apply RE, Vq|]. apply CO; [|exact Vq].
        assert (X : In x (A_finals (ia_base g1))) by (rewrite EF; left; reflexivity). apply filter_In in X. destruct X as [Vx Fx]. rewrite F1 in Fx. intros NE.
        assert (X : In x (A_finals (ia_base g))) by (apply filter_In; split; [apply SUB, Vx|exact Fx]). rewrite NE in X. destruct X. }
    split; [congruence|]. split; [exact EV|]. split; [intros q _; rewrite F2; reflexivity|]. intros e. rewrite T2, <- !EV. split; [|tauto]. intros J. split; [exact J|]. apply T1 in J. tauto.
  Qed.
End T.

(** ** Where they do not agree *)

(** revuz_minimize removes the initial state 1, equivalent to the state 0, and leaves an automaton that rejects the word 7; hopcroft_minimize returns one that accepts it. *)
Theorem C126_initial_refuted : exists (ops : list (aop nat)) g1 g2, disciplined (aa_init 3) ops /\
  let g := fst (runs IA_call (IA_init 3) ops) in
  acyclic (aut_arc (IA_edges g)) /\ hopcroft_minimize 3 g (fun _ l => l) (fun _ _ l => l) (fun _ l => l) (fun _ l => l) (fun B => B) = Some (g1, Ok tt) /\
  revuz_minimize 3 (fun _ l => l) (fun _ l => l) [] g = Some (g2, Ok 1%Z) /\ A_accepts (ia_base g1) [7] = true /\ A_accepts (ia_base g2) [7] = false.
Proof.
  exists [AAddEdge 0 2 7; AAddEdge 1 2 7; ASetFinal 2 true; ASetInitial (Some 1) true]. do 2 eexists. split; [cbn; intuition discriminate|]. intros g. split; [|split; [vm_compute; reflexivity|split; [vm_compute; reflexivity|split; reflexivity]]].
  assert (UP : forall u v, aut_arc (IA_edges g) u v -> u < v) by (intros u v [a I]; vm_compute in I; destruct I as [I|[I|[]]]; injection I as <- <- <-; lia).
  intros k v P. assert (G : forall k u v, upath (aut_arc (IA_edges g)) k u v -> u <= v /\ (0 < k -> u < v)) by (clear -UP; induction 1 as [|k u v x R P IH]; [lia|]; specialize (UP _ _ R); lia). destruct (G _ _ _ P) as [_ L]. lia.
Qed.
(** When every state is final, hopcroft_minimize raises where revuz_minimize returns. *)
Theorem C126_all_final_refuted : exists (ops : list (aop nat)) g1 g2 e, disciplined (aa_init 2) ops /\
  let g := fst (runs IA_call (IA_init 2) ops) in
  hopcroft_minimize 2 g (fun _ l => l) (fun _ _ l => l) (fun _ l => l) (fun _ l => l) (fun B => B) = Some (g1, Raise e) /\
  revuz_minimize 2 (fun _ l => l) (fun _ l => l) [] g = Some (g2, Ok 1%Z).
Proof.
  exists [AAddEdge 0 1 7; ASetFinal 0 true; ASetFinal 1 true; ASetInitial (Some 0) true]. do 3 eexists. split; [cbn; intuition discriminate|]. split; vm_compute; reflexivity.
Qed.

(** ** Examples: the hypotheses hold *)
Example C126_example : exists g1 g2 h i1, hopcroft_minimize 5 TRevuz.ex_g (fun _ l => l) (fun _ _ l => l) (fun _ l => l) (fun _ l => l) (fun B => B) = Some (g1, Ok tt) /\
  revuz_minimize 5 rev_ord rev_ord [] TRevuz.ex_g = Some (g2, Ok h) /\ A_initial (ia_base g1) = Some i1 /\ A_initial (ia_base g2) = Some 0 /\ isomorphic (ia_dfa g1 i1) (ia_dfa g2 0).
Proof.
  pose proof (C126_agree_partial 5 TRevuz.ex_ops 5 5 0 (fun _ l => l) (fun _ _ l => l) (fun _ l => l) (fun _ l => l) (fun B => B) rev_ord rev_ord
    (id_valid _) (fun _ => id_valid _) (id_valid _) (id_valid _) (fun B => Permutation_refl B) (rev_valid _) (rev_valid _) TRevuz.ex_disciplined) as TH.
  assert (EG : fst (runs IA_call (IA_init 5) TRevuz.ex_ops) = TRevuz.ex_g) by (unfold TRevuz.ex_g; reflexivity). cbv zeta in TH. rewrite EG in TH. apply TH; clear TH EG.
  - exact TRevuz.ex_acyclic.
  - exists 3. vm_compute. auto 10.
  - exists 0. vm_compute. auto.
  - vm_compute. auto.
  - reflexivity.
  - intros q _ L. lia.
  - vm_compute. lia.
  - vm_compute. lia.
Qed.
Example C126_example_states : (* five states become three for both *)
  match hopcroft_minimize 5 TRevuz.ex_g (fun _ l => l) (fun _ _ l => l) (fun _ l => l) (fun _ l => l) (fun B => B), revuz_minimize 5 rev_ord rev_ord [] TRevuz.ex_g with
  | Some (g1, Ok tt), Some (g2, Ok h) => length (IA_vertices g1) = 3 /\ IA_vertices g2 = [0; 1; 3] /\ h = 2%Z
  | _, _ => False
  end.
Proof. vm_compute. auto. Qed.
Example C127_revuz_example : exists g1 g2 h, revuz_minimize 7 (fun _ l => l) (fun _ l => l) [] ca_g = Some (g1, Ok h) /\ revuz_minimize 7 rev_ord rev_ord [] g1 = Some (g2, Ok h) /\ same_automaton g1 g2.
Proof.
  pose proof (C127_revuz 7 ca_ops 7 7 (fun _ l => l) rev_ord (fun _ l => l) rev_ord ca_disciplined (id_valid _) (rev_valid _) (id_valid _) (rev_valid _)) as TH.
  assert (EG : fst (runs IA_call (IA_init 7) ca_ops) = ca_g) by (unfold ca_g; reflexivity). cbv zeta in TH. rewrite EG in TH. apply TH; [exact ca_apart|vm_compute; lia|vm_compute; lia].
Qed.
Example C127_hopcroft_example : exists g1 g2 i1 i2, hopcroft_minimize 5 THopcroft.ex_g (fun _ l => l) (fun _ _ l => l) (fun _ l => l) (fun _ l => l) (fun B => B) = Some (g1, Ok tt) /\
  hopcroft_minimize 9 g1 rev_ord (fun _ => rev_ord) rev_ord rev_ord (@rev nat) = Some (g2, Ok tt) /\
  A_initial (ia_base g1) = Some i1 /\ A_initial (ia_base g2) = Some i2 /\ isomorphic (ia_dfa g1 i1) (ia_dfa g2 i2).
Proof.
  pose proof (C127_hopcroft 5 THopcroft.ex_ops 5 9 0 (fun _ l => l) rev_ord (fun _ _ l => l) (fun _ => rev_ord) (fun _ l => l) rev_ord (fun _ l => l) rev_ord (fun B => B) (@rev nat)
    (id_valid _) (fun _ => id_valid _) (id_valid _) (id_valid _) (fun B => Permutation_refl B) (rev_valid _) (fun _ => rev_valid _) (rev_valid _) (rev_valid _) (fun B => Permutation_sym (Permutation_rev B)) THopcroft.ex_disciplined) as TH.
  assert (EG : fst (runs IA_call (IA_init 5) THopcroft.ex_ops) = THopcroft.ex_g) by (unfold THopcroft.ex_g; reflexivity). cbv zeta in TH. rewrite EG in TH. apply TH; clear TH EG.
  - exists 3. vm_compute. auto 10.
  - exists 0. vm_compute. auto.
  - vm_compute. auto.
  - reflexivity.
  - vm_compute. lia.
  - vm_compute. lia.
Qed.
Example C127_prune_example : disciplined (aa_init 5) (prune_ex true) /\
  match prune_incidence_automaton 50 (fun _ l => l) (fst (runs IA_call (IA_init 5) (prune_ex true))) with
  | Some (g1, Ok tt) => IA_vertices g1 = [0; 1; 2] /\ match prune_incidence_automaton 50 rev_ord g1 with Some (g2, Ok tt) => IA_vertices g2 = [0; 1; 2] | _ => False end
  | _ => False
  end.
Proof. split; [vm_compute; intuition (congruence || auto 10)|]. vm_compute. auto. Qed.

Print Assumptions C126_agree_partial.
Print Assumptions C126_initial_refuted.
Print Assumptions C126_all_final_refuted.
Print Assumptions C127_revuz.
Print Assumptions C127_hopcroft.
Print Assumptions C127_prune.
