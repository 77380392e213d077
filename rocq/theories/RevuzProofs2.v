(** Lemmas on revuz_minimize: merging states, and levels. *)
From Coq Require Import ZArith.
From Verif Require Import Graph GraphProofs Automaton AutomatonSpec AutomatonProofs AutomatonProofs2 Heap Revuz RevuzSpec RevuzProofs Base BaseProofs.

Lemma sorted_perm l : Permutation (py_sorted Nat.ltb l) l.
Proof.
  assert (I : forall x l, Permutation (insort Nat.ltb x l) (x :: l)).
  { intros x l'. induction l' as [|y l' IH]; cbn [insort]; [reflexivity|]. destruct (y <? x); [|reflexivity]. rewrite IH. constructor. }
  induction l as [|x l IH]; cbn; [reflexivity|]. rewrite I, IH. reflexivity.
Qed.
Lemma sorted_head l q rest : py_sorted Nat.ltb l = q :: rest -> forall x, In x rest -> q <= x.
Proof.
  revert q rest. induction l as [|y l IH]; intros q rest E x I; [discriminate|]. cbn [py_sorted fold_right] in E. change (fold_right (insort Nat.ltb) [] l) with (py_sorted Nat.ltb l) in E. destruct (py_sorted Nat.ltb l) as [|z r] eqn:F; cbn [insort] in E.
  - injection E as <- <-. destruct I.
  - specialize (IH z r eq_refl). destruct (Nat.ltb_spec z y).
    + injection E as <- <-. assert (J : In x (y :: r)).
      { revert I. clear. induction r as [|w r IHr]; cbn [insort]; [tauto|]. destruct (w <? y); cbn [In] in *; [intros [<-|I]; [auto|destruct (IHr I); auto]|tauto]. }
      destruct J as [<-|J]; [lia|apply IH, J].
    + injection E as <- <-. destruct I as [<-|I]; [assumption|]. specialize (IH x I). lia.
Qed.

Section M.
  Context {A : Type} {EA : EqDec A}.
  Notation aaut := (aaut A).

  Lemma In_obs_out (g : iaut A) s q e : iarep g s -> (In e (IA_out_edges g q) <-> source e = q /\ In e (aa_T s)).
  Proof.
    intros R. unfold IA_out_edges. split.
    - intros I. apply (Permutation_in _ (obs_out _ _ (proj1 R) q)) in I. apply filter_In in I. rewrite Nat.eqb_eq in I. tauto.
    - intros [E I]. apply (Permutation_in _ (Permutation_sym (obs_out _ _ (proj1 R) q))). apply filter_In. rewrite Nat.eqb_eq. auto.
  Qed.
  Lemma In_obs_in (g : iaut A) s r e : iarep g s -> (In e (IA_in_edges g r) <-> target e = r /\ In e (aa_T s)).
  Proof. intros (_ & _ & W & L & _). destruct e as [q r' a]. rewrite In_in_edges by exact W. rewrite L. cbn. split; intros [-> H]; auto. Qed.
  Lemma iarep_det (g : iaut A) s : iarep g s -> forall q r r' a, In (Edge q r a) (aa_T s) -> In (Edge q r' a) (aa_T s) -> r = r'.
  Proof. intros R q r r' a I I'. pose proof (keys_same_key _ _ (proj1 (proj2 (proj2 (proj2 (proj1 R))))) _ _ I I' eq_refl eq_refl) as E. congruence. Qed.
  Lemma iarep_nodup (g : iaut A) s : iarep g s -> NoDup (aa_V s).
  Proof. intros R. rewrite <- (proj1 (proj2 (proj1 R))). apply R. Qed.
  Lemma iarep_closed (g : iaut A) s : iarep g s -> forall q r a, In (Edge q r a) (aa_T s) -> In q (aa_V s) /\ In r (aa_V s).
  Proof. intros R q r a I. apply (proj2 (proj2 (proj2 (proj2 R))) _ I). Qed.

  (** ** One edge, all the in-edges *)
  Lemma move_edge_spec (g : iaut A) s e q1 : iarep g s -> In e (aa_T s) -> In q1 (aa_V s) ->
    exists g' s', move_edge q1 g e = (g', Ok tt) /\ iarep g' s' /\ aa_V s' = aa_V s /\ aa_q0 s' = aa_q0 s /\ aa_final s' = aa_final s /\
      forall x, In x (aa_T s') <-> (In x (aa_T s) /\ x <> e) \/ x = Edge (source e) q1 (distinguisher e).
  Proof.
    intros R I V1. unfold move_edge. destruct (IA_step g s (ARemoveEdge e) R (or_introl I)) as [R1 O1].
    pose proof (iarep_closed _ _ R (source e) (target e) (distinguisher e)) as CL. assert (CE : In (Edge (source e) (target e) (distinguisher e)) (aa_T s)) by (destruct e; exact I). specialize (CL CE).
    assert (KEY : forall x, In x (aa_T s) -> source x = source e -> distinguisher x = distinguisher e -> x = e) by (intros x J; apply (keys_same_key _ _ (proj1 (proj2 (proj2 (proj2 (proj1 R))))) _ _ J I)).
    destruct s as [k V T q0 f]. cbn [IA_call ia_step aa_T aa_V aa_q0 aa_final] in *.
    assert (EX : existsb (fun x => (source x =? source e) && (target x =? target e)) T = true) by (apply existsb_exists; exists e; rewrite !Nat.eqb_refl; auto). rewrite EX in R1, O1. cbn [aa_step fst snd] in R1, O1.
    destruct (IA_remove_edge g e) as [g1 [[]|x]]; [|discriminate O1]. cbn [fst snd] in R1.
    assert (NL : lookup (drop_key (source e) (distinguisher e) T) (source e) (distinguisher e) = None).
    { unfold lookup. destruct (find (same_key (source e) (distinguisher e)) (drop_key (source e) (distinguisher e) T)) as [y|] eqn:F; [|reflexivity]. apply find_some in F. destruct F as [F1 F2]. apply In_drop_key in F1. destruct (same_key_spec (source e) (distinguisher e) y); [tauto|discriminate]. }
    destruct (IA_step g1 _ (AAddEdge (source e) q1 (distinguisher e)) R1) as [R2 O2].
    { cbn. rewrite NL. split; [apply CL|split; [exact V1|discriminate]]. }
    cbn [IA_call ia_step aa_step] in R2, O2. rewrite NL in R2, O2. rewrite (proj2 (mem_spec _ _) (proj1 CL)) in R2, O2. cbn [fst snd] in R2, O2.
    destruct (IA_add_edge g1 (source e) q1 (distinguisher e)) as [g2 [[y b]|x]]; [|discriminate O2]. cbn [fst snd] in R2.
    eexists. eexists. split; [reflexivity|]. split; [exact R2|]. cbn [aa_T aa_V aa_q0 aa_final]. split; [reflexivity|]. split; [reflexivity|]. split; [reflexivity|].
    intros x. rewrite in_app_iff, In_drop_key. rewrite In_drop_key. cbn [In]. split.
    - intros [[[J N] _]|[<-|[]]]; [left|right; reflexivity]. split; [exact J|]. intros ->. apply N. auto.
    - intros [[J N]| ->]; [left|right; left; reflexivity]. assert (NN : ~ (source x = source e /\ distinguisher x = distinguisher e)) by (intros [E1 E2]; apply N, KEY; assumption). tauto.
  Qed.

  Lemma move_edges_spec q1 q2 L : q1 <> q2 -> forall (g : iaut A) s, iarep g s -> NoDup L -> (forall e, In e L -> In e (aa_T s) /\ target e = q2) -> In q1 (aa_V s) ->
    exists g' s', foreach (move_edge q1) g L = (g', Ok tt) /\ iarep g' s' /\ aa_V s' = aa_V s /\ aa_q0 s' = aa_q0 s /\ aa_final s' = aa_final s /\
      forall x, In x (aa_T s') <-> (In x (aa_T s) /\ ~ In x L) \/ exists e, In e L /\ x = Edge (source e) q1 (distinguisher e).
  Proof.
    intros N12. induction L as [|e L IH]; intros g s R N H V1; cbn [foreach].
    - exists g, s. split; [reflexivity|]. split; [exact R|]. split; [reflexivity|]. split; [reflexivity|]. split; [reflexivity|]. intros x. split; [intros I; left; split; [exact I|intros []]|intros [[I _]|(e & [] & _)]; exact I].
    - inversion N as [|? ? N1 N2]; subst. destruct (H e (or_introl eq_refl)) as [I T2].
      destruct (move_edge_spec g s e q1 R I V1) as (g1 & s1 & -> & R1 & EV1 & EQ1 & EF1 & ET1).
      destruct (IH g1 s1 R1 N2) as (g2 & s2 & -> & R2 & EV2 & EQ2 & EF2 & ET2).
      + intros x J. destruct (H x (or_intror J)) as [J1 J2]. split; [|exact J2]. apply ET1. left. split; [exact J1|]. intros ->. contradiction.
      + rewrite EV1. exact V1.
      + exists g2, s2. split; [reflexivity|]. split; [exact R2|]. split; [congruence|]. split; [congruence|]. split; [congruence|]. intros x. rewrite ET2, ET1. split.
        * intros [[[[J1 J2]|J] J3]|(y & J1 & J2)]; [left; split; [exact J1|]; intros [->|K]; auto|right; exists e; split; [left; reflexivity|exact J]|right; exists y; split; [right; exact J1|exact J2]].
        * intros [[J1 J2]|(y & [->|J1] & J2)]; [left; split; [left; split; [exact J1|intros ->; apply J2; left; reflexivity]|intros K; apply J2; right; exact K]|left; split; [right; exact J2|]|right; exists y; auto].
          intros K. destruct (H x (or_intror K)) as [_ TX]. rewrite J2 in TX. cbn in TX. congruence.
  Qed.

  (** Redirecting the transitions into q2 towards q1, and removing q2 *)
  Definition redirect (q1 q2 v : nat) : nat := if v =? q2 then q1 else v.
  Lemma merge_spec ord q1 q2 (g : iaut A) s : valid_order ord -> iarep g s -> q1 <> q2 -> In q1 (aa_V s) ->
    exists g' s', merge ord q1 g q2 = (g', Ok tt) /\ iarep g' s' /\ aa_V s' = filter (fun v => negb (v =? q2)) (aa_V s) /\ aa_q0 s' = aa_q0 s /\ aa_final s' = aa_final s /\
      forall p r a, In (Edge p r a) (aa_T s') <-> p <> q2 /\ exists r0, In (Edge p r0 a) (aa_T s) /\ redirect q1 q2 r0 = r.
  Proof.
    intros OV R N V1. unfold merge.
    assert (HL : forall e, In e (ord q2 (sof (IA_in_edges g q2))) <-> target e = q2 /\ In e (aa_T s)).
    { intros e. rewrite <- (In_obs_in g s q2 e R), <- (In_sof e (IA_in_edges g q2)). split; apply Permutation_in; [|symmetry]; apply OV. }
    destruct (move_edges_spec q1 q2 (ord q2 (sof (IA_in_edges g q2))) N g s R) as (g1 & s1 & -> & R1 & EV & EQ & EF & ET).
    - apply (Permutation_NoDup (Permutation_sym (OV _ _))), NoDup_sof.
    - intros e I. apply HL in I. tauto.
    - exact V1.
    - destruct (IA_remove_vertex_spec g1 s1 q2 R1) as (g2 & -> & R2). eexists. eexists. split; [reflexivity|]. split; [exact R2|]. cbn [aa_V aa_q0 aa_final aa_T].
      split; [rewrite EV; reflexivity|]. split; [exact EQ|]. split; [exact EF|]. intros p r a. unfold drop_incident. rewrite filter_In. cbn [source target].
      rewrite ET. unfold redirect. split.
      + intros [H1 H2]. apply negb_true_iff, orb_false_iff in H2. destruct H2 as [H2 H3]. apply Nat.eqb_neq in H2, H3. split; [exact H2|]. destruct H1 as [[H1 H4]|([p0 r0 a0] & H1 & H4)].
        * exists r. split; [exact H1|]. destruct (Nat.eqb_spec r q2); [contradiction|reflexivity].
        * apply HL in H1. cbn in H1, H4. destruct H1 as [-> H1]. injection H4 as -> -> ->. exists q2. split; [exact H1|]. rewrite Nat.eqb_refl. reflexivity.
      + intros (H1 & r0 & H2 & H3). destruct (Nat.eqb_spec r0 q2) as [->|Nr].
        * subst r. split; [right; exists (Edge p q2 a); split; [apply HL; auto|reflexivity]|]. apply negb_true_iff, orb_false_iff. rewrite !Nat.eqb_neq. auto.
        * subst r. split; [left; split; [exact H2|]; rewrite HL; cbn; tauto|]. apply negb_true_iff, orb_false_iff. rewrite !Nat.eqb_neq. auto.
  Qed.

  (** ** Quotients at one level *)
  Definition sigeq (s : aaut) (x y : nat) : Prop := aa_final s x = aa_final s y /\ forall a r, In (Edge x r a) (aa_T s) <-> In (Edge y r a) (aa_T s).
  Lemma sigeq_refl s x : sigeq s x x. Proof. split; [reflexivity|tauto]. Qed.
  Lemma sigeq_sym s x y : sigeq s x y -> sigeq s y x. Proof. intros [H1 H2]. split; [auto|]. intros. symmetry. apply H2. Qed.
  Lemma sigeq_trans s x y z : sigeq s x y -> sigeq s y z -> sigeq s x z.
  Proof. intros [H1 H2] [H3 H4]. split; [congruence|]. intros. rewrite H2. apply H4. Qed.

  Variable ht : nat -> nat.
  Record quo (h : nat) (phi : nat -> nat) (s s' : aaut) : Prop := {
    q_V : forall v, In v (aa_V s') <-> In v (aa_V s) /\ phi v = v;
    q_in : forall v, In v (aa_V s) -> In (phi v) (aa_V s);
    q_idem : forall v, phi (phi v) = phi v;
    q_T : forall p r a, In (Edge p r a) (aa_T s') <-> phi p = p /\ exists r0, In (Edge p r0 a) (aa_T s) /\ phi r0 = r;
    q_q0 : aa_q0 s' = aa_q0 s;
    q_final : aa_final s' = aa_final s;
    q_level : forall v, ht v <> h -> phi v = v;
    q_ht : forall v, ht (phi v) = ht v;
    q_le : forall v, phi v <= v;
    q_sig : forall v, sigeq s (phi v) v }.
  Lemma quo_id h s : quo h (fun v => v) s s.
  Proof.
    split; try tauto; auto using sigeq_refl. intros p r a. split; [intros I; split; [reflexivity|]; exists r; auto|intros (_ & r0 & I & <-); exact I].
  Qed.
  Lemma quo_merge ord h phi s s' (g : iaut A) q1 q2 : valid_order ord -> iarep g s' -> quo h phi s s' -> q1 < q2 -> In q1 (aa_V s') -> In q2 (aa_V s') ->
    ht q1 = h -> ht q2 = h -> sigeq s q1 q2 ->
    exists g' s'', merge ord q1 g q2 = (g', Ok tt) /\ iarep g' s'' /\ quo h (fun v => redirect q1 q2 (phi v)) s s''.
  Proof.
    intros OV R Q LT V1 V2 H1 H2 SG. destruct (merge_spec ord q1 q2 g s' OV R ltac:(lia) V1) as (g' & s'' & E & R' & EV & EQ & EF & ET).
    exists g', s''. split; [exact E|]. split; [exact R'|]. apply (q_V _ _ _ _ Q) in V1, V2. destruct V1 as [V1 F1], V2 as [V2 F2]. unfold redirect in *. split.
    - intros v. rewrite EV, filter_In, negb_true_iff, Nat.eqb_neq, (q_V _ _ _ _ Q). split.
      + intros [[I F] N]. split; [exact I|]. rewrite F. destruct (Nat.eqb_spec v q2); [contradiction|reflexivity].
      + intros [I F]. destruct (Nat.eqb_spec (phi v) q2) as [E2|N2]; [subst v; rewrite F1 in E2; lia|]. split; [auto|]. congruence.
    - intros v I. destruct (phi v =? q2); [exact V1|apply (q_in _ _ _ _ Q), I].
    - intros v. destruct (Nat.eqb_spec (phi v) q2) as [E2|N2]; [rewrite F1; destruct (Nat.eqb_spec q1 q2); [lia|reflexivity]|]. rewrite (q_idem _ _ _ _ Q). destruct (Nat.eqb_spec (phi v) q2); [contradiction|reflexivity].
    - intros p r a. rewrite ET. split.
      + intros (N & r0 & I & <-). apply (q_T _ _ _ _ Q) in I. destruct I as (F & r1 & I & <-). rewrite F. destruct (Nat.eqb_spec p q2); [contradiction|]. split; [reflexivity|]. exists r1. auto.
      + intros (F & r0 & I & <-). destruct (Nat.eqb_spec (phi p) q2) as [E2|N2]; [subst p; rewrite F1 in E2; lia|]. split; [congruence|]. exists (phi r0). split; [|reflexivity]. apply (q_T _ _ _ _ Q). split; [exact F|]. exists r0. auto.
    - rewrite EQ. apply Q.
    - rewrite EF. apply Q.
    - intros v N. rewrite (q_level _ _ _ _ Q) by exact N. destruct (Nat.eqb_spec v q2); [congruence|reflexivity].
    - intros v. destruct (Nat.eqb_spec (phi v) q2) as [E2|N2]; [|apply Q]. rewrite <- (q_ht _ _ _ _ Q v), E2. congruence.
    - intros v. pose proof (q_le _ _ _ _ Q v). destruct (Nat.eqb_spec (phi v) q2); lia.
    - intros v. pose proof (q_sig _ _ _ _ Q v) as S0. destruct (Nat.eqb_spec (phi v) q2) as [E2|N2]; [|exact S0]. rewrite E2 in S0. apply (sigeq_trans _ _ q2); assumption.
  Qed.

  (** ** One group *)
  Lemma quo_merges ord h s q1 rest : valid_order ord -> forall phi s' (g : iaut A), iarep g s' -> quo h phi s s' -> NoDup rest -> In q1 (aa_V s') -> ht q1 = h ->
    (forall x, In x rest -> q1 < x /\ In x (aa_V s') /\ ht x = h /\ sigeq s q1 x) ->
    exists g' s'' phi', foreach (merge ord q1) g rest = (g', Ok tt) /\ iarep g' s'' /\ quo h phi' s s'' /\ forall v, phi' v = if mem (phi v) rest then q1 else phi v.
  Proof.
    intros OV. induction rest as [|q2 rest IH]; intros phi s' g R Q N V1 H1 H; cbn [foreach].
    - exists g, s', phi. split; [reflexivity|]. auto.
    - inversion N as [|? ? N1 N2]; subst. destruct (H q2 (or_introl eq_refl)) as (LT & V2 & H2 & SG).
      destruct (quo_merge ord _ phi s s' g q1 q2 OV R Q LT V1 V2 eq_refl H2 SG) as (g1 & s1 & -> & R1 & Q1).
      pose proof (proj1 (q_V _ _ _ _ Q q1) V1) as [V1s F1].
      assert (K : forall x, x <> q2 -> In x (aa_V s') -> In x (aa_V s1)).
      { intros x Nx I. apply (q_V _ _ _ _ Q) in I. apply (q_V _ _ _ _ Q1). destruct I as [I F]. split; [exact I|]. rewrite F. unfold redirect. destruct (Nat.eqb_spec x q2); [contradiction|reflexivity]. }
      destruct (IH _ s1 g1 R1 Q1 N2) as (g' & s'' & phi' & E & R' & Q' & EP).
      + apply K; [lia|exact V1].
      + reflexivity.
      + intros x I. destruct (H x (or_intror I)) as (G1 & G2 & G3 & G4). split; [exact G1|]. split; [|auto]. apply K; [|exact G2]. intros ->. contradiction.
      + exists g', s'', phi'. split; [exact E|]. split; [exact R'|]. split; [exact Q'|]. intros v. rewrite EP. unfold redirect. destruct (Nat.eqb_spec (phi v) q2) as [->|Nv].
        * rewrite (proj2 (mem_spec q2 (q2 :: rest)) (or_introl eq_refl)). destruct (mem q1 rest); reflexivity.
        * destruct (mem_reflect (phi v) rest) as [I|I], (mem_reflect (phi v) (q2 :: rest)) as [J|J]; try reflexivity; [destruct J; right; exact I|destruct J; [congruence|contradiction]].
  Qed.
  Lemma quo_group ord h s G sg : valid_order ord -> forall phi s' (g : iaut A), iarep g s' -> quo h phi s s' -> NoDup G ->
    (forall x, In x G -> In x (aa_V s') /\ ht x = h) -> (forall x y, In x G -> In y G -> sigeq s x y) ->
    exists g' s'' phi', merge_group ord g (sg, G) = (g', Ok tt) /\ iarep g' s'' /\ quo h phi' s s'' /\
      (forall v, ~ In (phi v) G -> phi' v = phi v) /\ (forall v, In v G -> In (phi' v) G) /\ forall x y, In x G -> In y G -> phi' x = phi' y.
  Proof.
    intros OV phi s' g R Q N H SG. unfold merge_group. cbn [snd].
    assert (FX : forall x, In x G -> phi x = x) by (intros x I; apply (q_V _ _ _ _ Q), H, I).
    destruct (Nat.ltb_spec (length G) 2) as [L|L].
    - exists g, s', phi. split; [reflexivity|]. split; [exact R|]. split; [exact Q|]. split; [auto|]. split; [intros v I; rewrite FX; assumption|]. intros x y I J. destruct G as [|z [|z' l]]; [destruct I|destruct I as [<-|[]], J as [<-|[]]; reflexivity|cbn in L; lia].
    - pose proof (sorted_perm G) as P. destruct (py_sorted Nat.ltb G) as [|q1 rest] eqn:E; [apply Permutation_nil in P; subst G; cbn in L; lia|].
      assert (M : forall x, In x G <-> x = q1 \/ In x rest) by (intros x; split; [intros I; apply (Permutation_in _ (Permutation_sym P)) in I; destruct I; auto|intros [->|I]; apply (Permutation_in _ P); [left; reflexivity|right; exact I]]).
      assert (ND : NoDup (q1 :: rest)) by (apply (Permutation_NoDup (Permutation_sym P)), N). inversion ND as [|? ? ND1 ND2]; subst.
      destruct (quo_merges ord h s q1 rest OV phi s' g R Q ND2) as (g' & s'' & phi' & F & R' & Q' & EP).
      + apply H, M. auto.
      + apply H, M. auto.
      + intros x I. assert (I' : In x G) by (apply M; auto). destruct (H x I') as [G1 G2]. split; [|split; [exact G1|split; [exact G2|apply SG; [apply M; auto|exact I']]]]. pose proof (sorted_head G q1 rest E x I). assert (x <> q1) by (intros ->; contradiction). lia.
      + assert (EG : forall v, In v G -> phi' v = q1).
        { intros v I. rewrite EP, FX by exact I. apply M in I. destruct (mem_reflect v rest) as [J|J]; [reflexivity|]. destruct I; [auto|contradiction]. }
        exists g', s'', phi'. split; [exact F|]. split; [exact R'|]. split; [exact Q'|]. split; [|split].
        * intros v NI. rewrite EP. destruct (mem_reflect (phi v) rest) as [J|J]; [|reflexivity]. destruct NI. apply M. auto.
        * intros v I. rewrite EG by exact I. apply M. auto.
        * intros x y I J. rewrite !EG; auto.
  Qed.

  (** ** All the groups *)
  Lemma quo_groups ord h s m : valid_order ord -> forall phi s' (g : iaut A), iarep g s' -> quo h phi s s' -> NoDup (concat (map snd m)) ->
    (forall sg G, In (sg, G) m -> (forall x, In x G -> In x (aa_V s') /\ ht x = h) /\ forall x y, In x G -> In y G -> sigeq s x y) ->
    exists g' s'' phi', foreach (merge_group ord) g m = (g', Ok tt) /\ iarep g' s'' /\ quo h phi' s s'' /\
      (forall v, ~ In (phi v) (concat (map snd m)) -> phi' v = phi v) /\
      forall sg G, In (sg, G) m -> (forall v, In v G -> In (phi' v) G) /\ forall x y, In x G -> In y G -> phi' x = phi' y.
  Proof.
    intros OV. induction m as [|[sg G] m IH]; intros phi s' g R Q N H; cbn [foreach map snd concat] in *.
    - exists g, s', phi. split; [reflexivity|]. split; [exact R|]. split; [exact Q|]. split; [auto|]. intros ? ? [].
    - apply NoDup_app_inv in N. destruct N as (N1 & N2 & N3). destruct (H sg G (or_introl eq_refl)) as [HG1 HG2].
      destruct (quo_group ord h s G sg OV phi s' g R Q N1 HG1 HG2) as (g1 & s1 & phi1 & -> & R1 & Q1 & P1 & P2 & P3).
      assert (FX : forall sg' G', In (sg', G') m -> forall x, In x G' -> phi1 x = x).
      { intros sg' G' I x J. destruct (H sg' G' (or_intror I)) as [H1 _]. assert (F : phi x = x) by (apply (q_V _ _ _ _ Q), H1, J). rewrite P1; [exact F|]. rewrite F. intros K. apply (N3 x K). apply in_concat. exists G'. split; [apply in_map_iff; exists (sg', G'); auto|exact J]. }
      destruct (IH phi1 s1 g1 R1 Q1 N2) as (g' & s'' & phi' & E & R' & Q' & P4 & P5).
      + intros sg' G' I. destruct (H sg' G' (or_intror I)) as [H1 H2]. split; [|exact H2]. intros x J. destruct (H1 x J) as [H3 H4]. split; [|exact H4]. apply (q_V _ _ _ _ Q1). split; [apply (q_V _ _ _ _ Q), H3|apply (FX sg' G' I x J)].
      + assert (GM : forall v, In v G -> phi' v = phi1 v) by (intros v I; apply P4; intros K; apply (N3 (phi1 v)); [apply P2, I|exact K]).
        exists g', s'', phi'. split; [exact E|]. split; [exact R'|]. split; [exact Q'|]. split.
        * intros v NI. rewrite in_app_iff in NI. rewrite P4; rewrite (P1 v) by tauto; [reflexivity|tauto].
        * intros sg' G' [[= -> ->]|I]; [|apply (P5 sg' G' I)]. split; [intros v I; rewrite GM by exact I; apply P2, I|]. intros x y I J. rewrite !GM by assumption. apply P3; assumption.
  Qed.

  (** ** The groups are the classes of [sigeq] *)
  Lemma sig_eqb_spec (g : iaut A) s x y : iarep g s -> sig_eqb (make_signature g x) (make_signature g y) = true <-> sigeq s x y.
  Proof.
    intros R. assert (HF : forall q, A_is_final (ia_base g) q = aa_final s q) by apply R.
    assert (M : forall q a r, In (a, r) (sof (map (fun e => (distinguisher e, target e)) (IA_out_edges g q))) <-> In (Edge q r a) (aa_T s)).
    { intros q a r. rewrite In_sof, in_map_iff. split.
      - intros ([p t b] & [= <- <-] & I). apply (In_obs_out _ _ _ _ R) in I. cbn in I. destruct I as [-> I]. exact I.
      - intros I. exists (Edge q r a). split; [reflexivity|]. apply (In_obs_out _ _ _ _ R). auto. }
    unfold sig_eqb, make_signature, sigeq. cbn [fst snd]. rewrite andb_true_iff, !HF. split.
    - intros [H1 H2]. split; [destruct (eqb_spec (aa_final s x) (aa_final s y)); [assumption|discriminate]|]. intros a r. rewrite <- !M. revert H2. rewrite set_eqb_spec. intros H2. apply H2.
    - intros [H1 H2]. split; [rewrite H1; apply eqb_refl|]. apply set_eqb_spec. intros [a r]. rewrite !M. apply H2.
  Qed.
  Lemma sig_eqb_sym (x y : @signature A) : sig_eqb x y = true -> sig_eqb y x = true.
  Proof. unfold sig_eqb. rewrite !andb_true_iff, !set_eqb_spec. intros [H1 H2]. split; [|intros a; symmetry; apply H2]. destruct (eqb_spec (fst x) (fst y)) as [E|]; [|discriminate]. rewrite E. apply eqb_refl. Qed.
  Lemma sig_eqb_trans (x y z : @signature A) : sig_eqb x y = true -> sig_eqb y z = true -> sig_eqb x z = true.
  Proof. unfold sig_eqb. rewrite !andb_true_iff, !set_eqb_spec. intros [H1 H2] [H3 H4]. split; [|intros a; rewrite H2; apply H4]. destruct (eqb_spec (fst x) (fst y)) as [E|]; [|discriminate]. rewrite E. exact H3. Qed.

  Definition agg_ok (g : iaut A) (l : list nat) (m : list (signature * list nat)) : Prop :=
    (forall k G, In (k, G) m -> forall q, In q G -> sig_eqb (make_signature g q) k = true) /\
    ForallOrdPairs (fun a b => sig_eqb (fst b) (fst a) = false) m /\ Permutation (concat (map snd m)) l.
  Lemma agg_add_ok (g : iaut A) m q : forall l, agg_ok g l m -> ~ In q l -> agg_ok g (q :: l) (agg_add m (make_signature g q) q) /\
    forall k, In k (map fst (agg_add m (make_signature g q) q)) -> In k (map fst m) \/ (k = make_signature g q).
  Proof.
    induction m as [|[k G] m IH]; intros l (H1 & H2 & H3) NI; cbn [agg_add].
    - cbn in H3. split; [|cbn; intros ? [<-|[]]; auto]. split; [|split].
      + intros k G [[= <- <-]|[]] x [<-|[]]. apply andb_true_iff. split; [apply eqb_refl|apply set_eqb_spec; tauto].
      + repeat constructor.
      + cbn. rewrite <- H3. reflexivity.
    - inversion H2 as [|? ? H4 H5]; subst. cbn [map snd concat] in H3. assert (NG : ~ In q G) by (intros I; apply NI; apply (Permutation_in _ H3), in_or_app; auto).
      destruct (sig_eqb (make_signature g q) k) eqn:E.
      + split; [|cbn; tauto]. split; [|split].
        * intros k' G' [[= <- <-]|I] x J; [|apply (H1 k' G' (or_intror I) x J)]. apply In_sadd in J. destruct J as [->|J]; [exact E|apply (H1 k G (or_introl eq_refl) x J)].
        * constructor; [|exact H5]. apply Forall_forall. intros b I. rewrite Forall_forall in H4. apply (H4 b I).
        * cbn [map snd concat]. unfold sadd. destruct (mem_reflect q G); [contradiction|]. rewrite <- H3. rewrite <- app_assoc. cbn. symmetry. apply Permutation_middle.
      + destruct (IH (concat (map snd m))) as [(K1 & K2 & K3) K4].
        * split; [intros k' G' I; apply (H1 k' G'); right; exact I|]. split; [exact H5|reflexivity].
        * intros I. apply NI, (Permutation_in _ H3), in_or_app. auto.
        * split; [split; [|split]|].
          -- intros k' G' [[= <- <-]|I]; [apply (H1 k G (or_introl eq_refl))|apply (K1 k' G' I)].
          -- constructor; [|exact K2]. apply Forall_forall. intros [k' G'] I. cbn. destruct (K4 k' (in_map fst _ _ I)) as [J| ->]; [|exact E]. apply in_map_iff in J. destruct J as ([k2 G2] & [= <-] & J). rewrite Forall_forall in H4. apply (H4 _ J).
          -- cbn [map snd concat]. rewrite K3, <- H3. symmetry. apply Permutation_middle.
          -- cbn [map]. intros k' [<-|I]; [left; left; reflexivity|]. destruct (K4 k' I); [left; right; assumption|auto].
  Qed.
  Lemma aggregates_ok (g : iaut A) l : NoDup l -> agg_ok g (rev l) (aggregates g l).
  Proof.
    intros N. unfold aggregates. assert (G : forall l m acc, agg_ok g acc m -> NoDup (rev l ++ acc) -> agg_ok g (rev l ++ acc) (fold_left (fun m q => agg_add m (make_signature g q) q) l m)).
    { clear -ht EA. induction l as [|q l IH]; intros m acc H N; cbn; [exact H|]. cbn in N. rewrite <- app_assoc in *. cbn in *. apply IH; [|exact N]. apply agg_add_ok; [exact H|]. apply NoDup_app_inv in N. destruct N as (_ & N & _). inversion N. assumption. }
    specialize (G l [] []). rewrite app_nil_r in G. apply G; [split; [intros ? ? []|split; [constructor|reflexivity]]|]. apply (Permutation_NoDup (Permutation_rev l)), N.
  Qed.

  Lemma level_merge ord h s (g : iaut A) l : valid_order ord -> iarep g s -> NoDup l -> (forall v, In v l <-> In v (aa_V s) /\ ht v = h) ->
    exists g' s' phi, foreach (merge_group ord) g (aggregates g l) = (g', Ok tt) /\ iarep g' s' /\ quo h phi s s' /\
      forall x y, In x l -> In y l -> sigeq s x y -> phi x = phi y.
  Proof.
    intros OV R N H. destruct (aggregates_ok g l N) as (A1 & A2 & A3). pose proof (Permutation_trans A3 (Permutation_sym (Permutation_rev l))) as A4.
    assert (IN : forall k G x, In (k, G) (aggregates g l) -> In x G -> In x l).
    { intros k G x I J. apply (Permutation_in _ A4), in_concat. exists G. split; [apply in_map_iff; exists (k, G); auto|exact J]. }
    destruct (quo_groups ord h s (aggregates g l) OV (fun v => v) s g R (quo_id h s)) as (g' & s' & phi & E & R' & Q & _ & P).
    - apply (Permutation_NoDup (Permutation_sym A4)), N.
    - intros k G I. split; [intros x J; apply H, (IN k G x I J)|]. intros x y J1 J2. apply (sig_eqb_spec g s x y R). apply (sig_eqb_trans _ k); [apply (A1 k G I x J1)|apply sig_eqb_sym, (A1 k G I y J2)].
    - exists g', s', phi. split; [exact E|]. split; [exact R'|]. split; [exact Q|]. intros x y I J SG.
      apply (Permutation_in _ (Permutation_sym A4)), in_concat in I. apply (Permutation_in _ (Permutation_sym A4)), in_concat in J. destruct I as (G1 & I & I'), J as (G2 & J & J'). apply in_map_iff in I, J. destruct I as ([k1 G1'] & E1 & I), J as ([k2 G2'] & E2 & J). cbn in E1, E2. subst G1' G2'.
      assert (SK : sig_eqb k1 k2 = true /\ sig_eqb k2 k1 = true).
      { apply (sig_eqb_spec g s x y R) in SG. pose proof (A1 _ _ I _ I') as B1. pose proof (A1 _ _ J _ J') as B2. assert (B3 : sig_eqb k1 k2 = true) by (apply (sig_eqb_trans _ (make_signature g x)); [apply sig_eqb_sym, B1|apply (sig_eqb_trans _ (make_signature g y)); assumption]). split; [exact B3|apply sig_eqb_sym, B3]. }
      destruct (ForallOrdPairs_In A2 _ _ I J) as [EQ|[EQ|EQ]]; cbn in EQ; [|destruct SK; congruence|destruct SK; congruence]. injection EQ as <- <-. apply (proj2 (P k1 G1 I) x y I' J').
  Qed.
End M.
