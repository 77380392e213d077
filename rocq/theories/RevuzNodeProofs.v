(** Lemmas on revuz_minimize on an IncidenceNodeAutomaton: merging states, and levels. The proofs follow RevuzProofs2.v. *)
From Coq Require Import ZArith.
From Verif Require Import Graph GraphProofs Automaton AutomatonSpec AutomatonProofs AutomatonProofs2 AutomatonProofs3 NodeAut Heap Revuz RevuzSpec RevuzProofs RevuzProofs2 RevuzProofs3 RevuzNode Base BaseProofs.

Section M.
  Context {A : Type} {EA : EqDec A}.
  Notation aaut := (aaut (option A)).
  Variable sym : nat -> option A.

  (** [g] has the states, the transitions, the initial and the final states of [s], and the symbols [sym]. *)
  Definition narep (g : naut A) (s : aaut) : Prop :=
    nrep g (NS (aa_next s) (aa_V s) (aa_T s) sym) /\ na_q0 g = aa_q0 s /\ forall q, na_final g q = aa_final s q.

  Lemma narep_sym g s q : narep g s -> na_symbol g q = sym q.
  Proof. intros ((_ & (S & _) & _) & _). apply S. Qed.
  Lemma narep_V g s : narep g s -> NA_vertices g = aa_V s.
  Proof. intros (((_ & V & _) & _) & _). exact V. Qed.
  Lemma In_obs_nedges g s e : narep g s -> (In e (NA_edges g) <-> In e (aa_T s)).
  Proof. intros (((_ & _ & W & T) & _) & _). destruct e as [q r a]. change (NA_edges g) with (tedges (na_adj g)). rewrite (In_tedges _ _ _ _ W). symmetry. apply (proj2 T). Qed.
  Lemma In_obs_nout g s q : narep g s -> In q (aa_V s) -> exists es, NA_out_edges g q = Ok es /\ forall e, In e es <-> source e = q /\ In e (aa_T s).
  Proof.
    intros R I. pose proof (narep_V g s R) as V. rewrite <- V in I. unfold NA_out_edges. apply key_dget in I. destruct I as (d & G). rewrite G. eexists. split; [reflexivity|].
    intros [p r a]. rewrite in_map_iff. cbn [source]. destruct R as (((_ & _ & W & T) & _) & _). cbn [ns_T] in T. split.
    - intros ([b t] & [= <- <- <-] & J). split; [reflexivity|]. apply (proj2 T). unfold tr. rewrite G. apply In_dget; [apply (proj2 W q d G)|exact J].
    - intros [-> J]. apply (proj2 T) in J. unfold tr in J. rewrite G in J. exists (a, r). split; [reflexivity|]. apply dget_In, J.
  Qed.
  Lemma In_obs_nin g s r e : narep g s -> (In e (INA_in_edges g r) <-> target e = r /\ In e (aa_T s)).
  Proof.
    intros ((_ & (S & _ & _ & P) & C & _) & _). cbn [ns_sym ns_T] in *. destruct e as [q r' a]. unfold INA_in_edges. rewrite in_map_iff. cbn [target]. rewrite S. split.
    - intros (p & [= -> <- <-] & I). split; [reflexivity|]. apply P, I.
    - intros [-> I]. exists q. pose proof (C _ I) as (D & _). cbn in D. subst a. split; [reflexivity|]. apply P, I.
  Qed.
  Lemma narep_det g s : narep g s -> forall q r r' a, In (Edge q r a) (aa_T s) -> In (Edge q r' a) (aa_T s) -> r = r'.
  Proof. intros (((_ & _ & W & T) & _) & _) q r r' a I I'. apply (proj2 T) in I, I'. congruence. Qed.
  Lemma narep_nodup g s : narep g s -> NoDup (aa_V s).
  Proof. intros R. rewrite <- (narep_V g s R). apply R. Qed.
  Lemma narep_closed g s : narep g s -> forall q r a, In (Edge q r a) (aa_T s) -> In q (aa_V s) /\ In r (aa_V s).
  Proof. intros ((_ & _ & C & _) & _) q r a I. apply (C _ I). Qed.
  Lemma narep_label g s : narep g s -> forall q r a, In (Edge q r a) (aa_T s) -> a = sym r.
  Proof. intros ((_ & _ & C & _) & _) q r a I. apply (C _ I). Qed.

  Lemma INA_q0 (g : naut A) op : na_q0 (fst (INA_call g op)) = na_q0 g /\ na_final (fst (INA_call g op)) = na_final g.
  Proof.
    destruct op as [a|q r|e|u]; cbn [INA_call].
    - split; reflexivity.
    - unfold INA_add_edge, NA_add_edge. destruct (dget (na_adj g) q) as [d|]; [|split; reflexivity]. destruct (dmem d (na_symbol g r)); split; reflexivity.
    - unfold INA_remove_edge, NA_remove_edge. destruct (dget (na_adj g) (source e)) as [d|]; [destruct (dmem d (na_symbol g (target e)))|];
        (match goal with |- context [if mem ?x ?y then _ else _] => destruct (mem x y) end); split; reflexivity.
    - unfold INA_remove_vertex. destruct (dmem (na_pred g) u).
      + destruct (foreach _ (na_adj g) (preds_of (na_pred g) u)) as [m [x|ex]]; [|split; reflexivity]. cbn [na_adj na_with_pred na_with_adj]. destruct (dget m u); split; reflexivity.
      + destruct (dget (na_adj g) u); split; reflexivity.
  Qed.

  (** ** One edge, all the in-edges *)
  Lemma nmove_edge_spec (g : naut A) s e q1 : narep g s -> In e (aa_T s) -> In q1 (aa_V s) -> sym q1 = sym (target e) ->
    exists g' s', nmove_edge q1 g e = (g', Ok tt) /\ narep g' s' /\ aa_V s' = aa_V s /\ aa_q0 s' = aa_q0 s /\ aa_final s' = aa_final s /\
      forall x, In x (aa_T s') <-> (In x (aa_T s) /\ x <> e) \/ x = Edge (source e) q1 (distinguisher e).
  Proof.
    intros R I V1 SY. unfold nmove_edge. pose proof (narep_closed _ _ R (source e) (target e) (distinguisher e)) as CL. assert (CE : In (Edge (source e) (target e) (distinguisher e)) (aa_T s)) by (destruct e; exact I). specialize (CL CE).
    pose proof (narep_label _ _ R _ _ _ CE) as LB.
    assert (KEY : forall x, In x (aa_T s) -> source x = source e -> distinguisher x = distinguisher e -> x = e).
    { intros [p r a] J E1 E2. cbn in E1, E2. subst p a. rewrite (narep_det _ _ R _ _ _ _ J CE). destruct e; reflexivity. }
    destruct R as (R & RQ & RF).
    destruct (NA_step g _ (NRemoveEdge e) R) as [R1 O1]; [left; exists e; cbn; auto|]. destruct (INA_q0 g (NRemoveEdge e)) as [RQ1 RF1].
    destruct s as [k V T q0 f]. cbn [INA_call ns_step aa_next aa_T aa_V aa_q0 aa_final ns_T ns_V] in *.
    assert (EX : existsb (fun x => (source x =? source e) && (target x =? target e)) T = true) by (apply existsb_exists; exists e; rewrite !Nat.eqb_refl; auto). rewrite EX in R1, O1. cbn [fst snd] in R1, O1.
    destruct (INA_remove_edge g e) as [g1 [[]|x]]; [|discriminate O1]. cbn [fst snd] in R1, RQ1, RF1. rewrite <- LB in R1.
    assert (NL : lookup (drop_key (source e) (distinguisher e) T) (source e) (sym q1) = None).
    { rewrite SY, <- LB. unfold lookup. destruct (find (same_key (source e) (distinguisher e)) (drop_key (source e) (distinguisher e) T)) as [y|] eqn:F; [|reflexivity]. apply find_some in F. destruct F as [F1 F2]. apply In_drop_key in F1. destruct (same_key_spec (source e) (distinguisher e) y); [tauto|discriminate]. }
    destruct (NA_step g1 _ (NAddEdge (source e) q1) R1) as [R2 O2]; [exact V1|]. destruct (INA_q0 g1 (NAddEdge (source e) q1)) as [RQ2 RF2].
    cbn [INA_call ns_step] in R2, O2, RQ2, RF2. rewrite NL in R2, O2. rewrite (proj2 (mem_spec _ _) (proj1 CL)) in R2, O2. cbn [fst snd] in R2, O2.
    destruct (INA_add_edge g1 (source e) q1) as [g2 [[y b]|x]]; [|discriminate O2]. cbn [fst snd] in R2, RQ2, RF2.
    exists g2, (AA k V (drop_key (source e) (distinguisher e) T ++ [Edge (source e) q1 (sym q1)]) q0 f). split; [reflexivity|]. split; [split; [exact R2|split; [cbn [aa_q0]; congruence|intros q; rewrite RF2, RF1; apply RF]]|]. cbn [aa_T aa_V aa_q0 aa_final]. split; [reflexivity|]. split; [reflexivity|]. split; [reflexivity|].
    intros x. rewrite in_app_iff, In_drop_key. cbn [In]. rewrite SY, <- LB. split.
    - intros [[J N]|[<-|[]]]; [left|right; reflexivity]. split; [exact J|]. intros ->. apply N. auto.
    - intros [[J N]| ->]; [left|right; left; reflexivity]. assert (NN : ~ (source x = source e /\ distinguisher x = distinguisher e)) by (intros [E1 E2]; apply N, KEY; assumption). tauto.
  Qed.
  Lemma nmove_edges_spec q1 q2 L : q1 <> q2 -> sym q1 = sym q2 -> forall (g : naut A) s, narep g s -> NoDup L -> (forall e, In e L -> In e (aa_T s) /\ target e = q2) -> In q1 (aa_V s) ->
    exists g' s', foreach (nmove_edge q1) g L = (g', Ok tt) /\ narep g' s' /\ aa_V s' = aa_V s /\ aa_q0 s' = aa_q0 s /\ aa_final s' = aa_final s /\
      forall x, In x (aa_T s') <-> (In x (aa_T s) /\ ~ In x L) \/ exists e, In e L /\ x = Edge (source e) q1 (distinguisher e).
  Proof.
    intros N12 SY. induction L as [|e L IH]; intros g s R N H V1; cbn [foreach].
    - exists g, s. split; [reflexivity|]. split; [exact R|]. split; [reflexivity|]. split; [reflexivity|]. split; [reflexivity|]. intros x. split; [intros I; left; split; [exact I|intros []]|intros [[I _]|(e & [] & _)]; exact I].
    - inversion N as [|? ? N1 N2]; subst. destruct (H e (or_introl eq_refl)) as [I T2].
      destruct (nmove_edge_spec g s e q1 R I V1 ltac:(congruence)) as (g1 & s1 & -> & R1 & EV1 & EQ1 & EF1 & ET1).
      destruct (IH g1 s1 R1 N2) as (g2 & s2 & -> & R2 & EV2 & EQ2 & EF2 & ET2).
      + intros x J. destruct (H x (or_intror J)) as [J1 J2]. split; [|exact J2]. apply ET1. left. split; [exact J1|]. intros ->. contradiction.
      + rewrite EV1. exact V1.
      + exists g2, s2. split; [reflexivity|]. split; [exact R2|]. split; [congruence|]. split; [congruence|]. split; [congruence|]. intros x. rewrite ET2, ET1. split.
        * intros [[[[J1 J2]|J] J3]|(y & J1 & J2)]; [left; split; [exact J1|]; intros [->|K]; auto|right; exists e; split; [left; reflexivity|exact J]|right; exists y; split; [right; exact J1|exact J2]].
        * intros [[J1 J2]|(y & [->|J1] & J2)]; [left; split; [left; split; [exact J1|intros ->; apply J2; left; reflexivity]|intros K; apply J2; right; exact K]|left; split; [right; exact J2|]|right; exists y; auto].
          intros K. destruct (H x (or_intror K)) as [_ TX]. rewrite J2 in TX. cbn in TX. congruence.
  Qed.

  Lemma nremove_vertex (g : naut A) s u : narep g s ->
    exists g', INA_remove_vertex g u = (g', Ok tt) /\ narep g' (AA (aa_next s) (filter (fun v => negb (v =? u)) (aa_V s)) (drop_incident u (aa_T s)) (aa_q0 s) (aa_final s)).
  Proof.
    intros (R & RQ & RF). destruct (NA_step g _ (NRemoveVertex u) R I) as [R1 O1]. destruct (INA_q0 g (NRemoveVertex u)) as [RQ1 RF1]. cbn [INA_call ns_step fst snd] in R1, O1, RQ1, RF1.
    destruct (INA_remove_vertex g u) as [g1 [[]|x]]; [|discriminate O1]. cbn [fst snd] in *. exists g1. split; [reflexivity|]. split; [exact R1|]. cbn [aa_q0 aa_final]. split; [congruence|]. intros q. rewrite RF1. apply RF.
  Qed.
  Lemma nmerge_spec ord q1 q2 (g : naut A) s : valid_order ord -> narep g s -> q1 <> q2 -> sym q1 = sym q2 -> In q1 (aa_V s) ->
    exists g' s', nmerge ord q1 g q2 = (g', Ok tt) /\ narep g' s' /\ aa_V s' = filter (fun v => negb (v =? q2)) (aa_V s) /\ aa_q0 s' = aa_q0 s /\ aa_final s' = aa_final s /\
      forall p r a, In (Edge p r a) (aa_T s') <-> p <> q2 /\ exists r0, In (Edge p r0 a) (aa_T s) /\ redirect q1 q2 r0 = r.
  Proof.
    intros OV R N SY V1. unfold nmerge.
    assert (HL : forall e, In e (ord q2 (sof (INA_in_edges g q2))) <-> target e = q2 /\ In e (aa_T s)).
    { intros e. rewrite <- (In_obs_nin g s q2 e R), <- (In_sof e (INA_in_edges g q2)). split; apply Permutation_in; [|symmetry]; apply OV. }
    destruct (nmove_edges_spec q1 q2 (ord q2 (sof (INA_in_edges g q2))) N SY g s R) as (g1 & s1 & -> & R1 & EV & EQ & EF & ET).
    - apply (Permutation_NoDup (Permutation_sym (OV _ _))), NoDup_sof.
    - intros e I. apply HL in I. tauto.
    - exact V1.
    - destruct (nremove_vertex g1 s1 q2 R1) as (g2 & -> & R2). eexists. eexists. split; [reflexivity|]. split; [exact R2|]. cbn [aa_V aa_q0 aa_final aa_T].
      split; [rewrite EV; reflexivity|]. split; [exact EQ|]. split; [exact EF|]. intros p r a. unfold drop_incident. rewrite filter_In. cbn [source target].
      rewrite ET. unfold redirect. split.
      + intros [H1 H2]. apply negb_true_iff, orb_false_iff in H2. destruct H2 as [H2 H3]. apply Nat.eqb_neq in H2, H3. split; [exact H2|]. destruct H1 as [[H1 H4]|([p0 r0 a0] & H1 & H4)].
        * exists r. split; [exact H1|]. destruct (Nat.eqb_spec r q2); [contradiction|reflexivity].
        * apply HL in H1. cbn in H1, H4. destruct H1 as [-> H1]. injection H4 as -> -> ->. exists q2. split; [exact H1|]. rewrite Nat.eqb_refl. reflexivity.
      + intros (H1 & r0 & H2 & H3). destruct (Nat.eqb_spec r0 q2) as [->|Nr].
        * subst r. split; [right; exists (Edge p q2 a); split; [apply HL; auto|reflexivity]|]. apply negb_true_iff, orb_false_iff. rewrite !Nat.eqb_neq. auto.
        * subst r. split; [left; split; [exact H2|]; rewrite HL; cbn; tauto|]. apply negb_true_iff, orb_false_iff. rewrite !Nat.eqb_neq. auto.
  Qed.

  (** ** Quotients at one level *)
  Definition nsigeq (s : aaut) (x y : nat) : Prop := sym x = sym y /\ sigeq s x y.
  Lemma nsigeq_sym s x y : nsigeq s x y -> nsigeq s y x. Proof. intros [H1 H2]. split; [auto|apply sigeq_sym, H2]. Qed.
  Lemma nsigeq_trans s x y z : nsigeq s x y -> nsigeq s y z -> nsigeq s x z.
  Proof. intros [H1 H2] [H3 H4]. split; [congruence|]. apply (sigeq_trans _ _ _ _ H2 H4). Qed.
  Variable ht : nat -> nat.
  Definition nquo (h : nat) (phi : nat -> nat) (s s' : aaut) : Prop := quo ht h phi s s' /\ forall v, sym (phi v) = sym v.
  Lemma nquo_merge ord h phi s s' (g : naut A) q1 q2 : valid_order ord -> narep g s' -> nquo h phi s s' -> q1 < q2 -> In q1 (aa_V s') -> In q2 (aa_V s') ->
    ht q1 = h -> ht q2 = h -> nsigeq s q1 q2 ->
    exists g' s'', nmerge ord q1 g q2 = (g', Ok tt) /\ narep g' s'' /\ nquo h (fun v => redirect q1 q2 (phi v)) s s''.
  Proof.
    intros OV R [Q QS] LT V1 V2 H1 H2 [SY SG]. destruct (nmerge_spec ord q1 q2 g s' OV R ltac:(lia) SY V1) as (g' & s'' & E & R' & EV & EQ & EF & ET).
    exists g', s''. split; [exact E|]. split; [exact R'|]. apply (q_V _ _ _ _ _ Q) in V1, V2. destruct V1 as [V1 F1], V2 as [V2 F2]. unfold redirect in *. split; [|intros v; destruct (Nat.eqb_spec (phi v) q2) as [E2|N2]; [rewrite SY, <- E2|]; apply QS]. split.
    - intros v. rewrite EV, filter_In, negb_true_iff, Nat.eqb_neq, (q_V _ _ _ _ _ Q). split.
      + intros [[I F] N]. split; [exact I|]. rewrite F. destruct (Nat.eqb_spec v q2); [contradiction|reflexivity].
      + intros [I F]. destruct (Nat.eqb_spec (phi v) q2) as [E2|N2]; [subst v; rewrite F1 in E2; lia|]. split; [auto|]. congruence.
    - intros v I. destruct (phi v =? q2); [exact V1|apply (q_in _ _ _ _ _ Q), I].
    - intros v. destruct (Nat.eqb_spec (phi v) q2) as [E2|N2]; [rewrite F1; destruct (Nat.eqb_spec q1 q2); [lia|reflexivity]|]. rewrite (q_idem _ _ _ _ _ Q). destruct (Nat.eqb_spec (phi v) q2); [contradiction|reflexivity].
    - intros p r a. rewrite ET. split.
      + intros (N & r0 & I & <-). apply (q_T _ _ _ _ _ Q) in I. destruct I as (F & r1 & I & <-). rewrite F. destruct (Nat.eqb_spec p q2); [contradiction|]. split; [reflexivity|]. exists r1. auto.
      + intros (F & r0 & I & <-). destruct (Nat.eqb_spec (phi p) q2) as [E2|N2]; [subst p; rewrite F1 in E2; lia|]. split; [congruence|]. exists (phi r0). split; [|reflexivity]. apply (q_T _ _ _ _ _ Q). split; [exact F|]. exists r0. auto.
    - rewrite EQ. apply Q.
    - rewrite EF. apply Q.
    - intros v N. rewrite (q_level _ _ _ _ _ Q) by exact N. destruct (Nat.eqb_spec v q2); [congruence|reflexivity].
    - intros v. destruct (Nat.eqb_spec (phi v) q2) as [E2|N2]; [|apply Q]. rewrite <- (q_ht _ _ _ _ _ Q v), E2. congruence.
    - intros v. pose proof (q_le _ _ _ _ _ Q v). destruct (Nat.eqb_spec (phi v) q2); lia.
    - intros v. pose proof (q_sig _ _ _ _ _ Q v) as S0. destruct (Nat.eqb_spec (phi v) q2) as [E2|N2]; [|exact S0]. rewrite E2 in S0. apply (sigeq_trans _ _ q2); assumption.
  Qed.

  (** ** One group *)
  Lemma nquo_merges ord h s q1 rest : valid_order ord -> forall phi s' (g : naut A), narep g s' -> nquo h phi s s' -> NoDup rest -> In q1 (aa_V s') -> ht q1 = h ->
    (forall x, In x rest -> q1 < x /\ In x (aa_V s') /\ ht x = h /\ nsigeq s q1 x) ->
    exists g' s'' phi', foreach (nmerge ord q1) g rest = (g', Ok tt) /\ narep g' s'' /\ nquo h phi' s s'' /\ forall v, phi' v = if mem (phi v) rest then q1 else phi v.
  Proof.
    intros OV. induction rest as [|q2 rest IH]; intros phi s' g R Q N V1 H1 H; cbn [foreach].
    - exists g, s', phi. split; [reflexivity|]. auto.
    - inversion N as [|? ? N1 N2]; subst. destruct (H q2 (or_introl eq_refl)) as (LT & V2 & H2 & SG).
      destruct (nquo_merge ord _ phi s s' g q1 q2 OV R Q LT V1 V2 eq_refl H2 SG) as (g1 & s1 & -> & R1 & Q1).
      pose proof (proj1 (q_V _ _ _ _ _ (proj1 Q) q1) V1) as [V1s F1].
      assert (K : forall x, x <> q2 -> In x (aa_V s') -> In x (aa_V s1)).
      { intros x Nx I. apply (q_V _ _ _ _ _ (proj1 Q)) in I. apply (q_V _ _ _ _ _ (proj1 Q1)). destruct I as [I F]. split; [exact I|]. rewrite F. unfold redirect. destruct (Nat.eqb_spec x q2); [contradiction|reflexivity]. }
      destruct (IH _ s1 g1 R1 Q1 N2) as (g' & s'' & phi' & E & R' & Q' & EP).
      + apply K; [lia|exact V1].
      + reflexivity.
      + intros x I. destruct (H x (or_intror I)) as (G1 & G2 & G3 & G4). split; [exact G1|]. split; [|auto]. apply K; [|exact G2]. intros ->. contradiction.
      + exists g', s'', phi'. split; [exact E|]. split; [exact R'|]. split; [exact Q'|]. intros v. rewrite EP. unfold redirect. destruct (Nat.eqb_spec (phi v) q2) as [->|Nv].
        * rewrite (proj2 (mem_spec q2 (q2 :: rest)) (or_introl eq_refl)). destruct (mem q1 rest); reflexivity.
        * destruct (mem_reflect (phi v) rest) as [I|I], (mem_reflect (phi v) (q2 :: rest)) as [J|J]; try reflexivity; [destruct J; right; exact I|destruct J; [congruence|contradiction]].
  Qed.
  Lemma nquo_group ord h s G sg : valid_order ord -> forall phi s' (g : naut A), narep g s' -> nquo h phi s s' -> NoDup G ->
    (forall x, In x G -> In x (aa_V s') /\ ht x = h) -> (forall x y, In x G -> In y G -> nsigeq s x y) ->
    exists g' s'' phi', nmerge_group ord g (sg, G) = (g', Ok tt) /\ narep g' s'' /\ nquo h phi' s s'' /\
      (forall v, ~ In (phi v) G -> phi' v = phi v) /\ (forall v, In v G -> In (phi' v) G) /\ forall x y, In x G -> In y G -> phi' x = phi' y.
  Proof.
    intros OV phi s' g R Q N H SG. unfold nmerge_group. cbn [snd].
    assert (FX : forall x, In x G -> phi x = x) by (intros x I; apply (q_V _ _ _ _ _ (proj1 Q)), H, I).
    destruct (Nat.ltb_spec (length G) 2) as [L|L].
    - exists g, s', phi. split; [reflexivity|]. split; [exact R|]. split; [exact Q|]. split; [auto|]. split; [intros v I; rewrite FX; assumption|]. intros x y I J. destruct G as [|z [|z' l]]; [destruct I|destruct I as [<-|[]], J as [<-|[]]; reflexivity|cbn in L; lia].
    - pose proof (sorted_perm G) as P. destruct (py_sorted Nat.ltb G) as [|q1 rest] eqn:E; [apply Permutation_nil in P; subst G; cbn in L; lia|].
      assert (M : forall x, In x G <-> x = q1 \/ In x rest) by (intros x; split; [intros I; apply (Permutation_in _ (Permutation_sym P)) in I; destruct I; auto|intros [->|I]; apply (Permutation_in _ P); [left; reflexivity|right; exact I]]).
      assert (ND : NoDup (q1 :: rest)) by (apply (Permutation_NoDup (Permutation_sym P)), N). inversion ND as [|? ? ND1 ND2]; subst.
      destruct (nquo_merges ord h s q1 rest OV phi s' g R Q ND2) as (g' & s'' & phi' & F & R' & Q' & EP).
      + apply H, M. auto.
      + apply H, M. auto.
      + intros x I. assert (I' : In x G) by (apply M; auto). destruct (H x I') as [G1 G2]. split; [|split; [exact G1|split; [exact G2|apply SG; [apply M; auto|exact I']]]]. pose proof (sorted_head G q1 rest E x I). assert (x <> q1) by (intros ->; contradiction). lia.
      + assert (EG : forall v, In v G -> phi' v = q1).
        { intros v I. rewrite EP, FX by exact I. apply M in I. destruct (mem_reflect v rest) as [J|J]; [reflexivity|]. destruct I; [auto|contradiction]. }
        exists g', s'', phi'. split; [exact F|]. split; [exact R'|]. split; [exact Q'|]. split; [|split].
        * intros v NI. rewrite EP. destruct (mem_reflect (phi v) rest) as [J|J]; [|reflexivity]. destruct NI. apply M. auto.
        * intros v I. rewrite EG by exact I. apply M. auto.
        * intros x y I J. rewrite !EG; auto.
  Qed.

  (** ** All the groups *)
  Lemma nquo_groups ord h s m : valid_order ord -> forall phi s' (g : naut A), narep g s' -> nquo h phi s s' -> NoDup (concat (map snd m)) ->
    (forall sg G, In (sg, G) m -> (forall x, In x G -> In x (aa_V s') /\ ht x = h) /\ forall x y, In x G -> In y G -> nsigeq s x y) ->
    exists g' s'' phi', foreach (nmerge_group ord) g m = (g', Ok tt) /\ narep g' s'' /\ nquo h phi' s s'' /\
      (forall v, ~ In (phi v) (concat (map snd m)) -> phi' v = phi v) /\
      forall sg G, In (sg, G) m -> (forall v, In v G -> In (phi' v) G) /\ forall x y, In x G -> In y G -> phi' x = phi' y.
  Proof.
    intros OV. induction m as [|[sg G] m IH]; intros phi s' g R Q N H; cbn [foreach map snd concat] in *.
    - exists g, s', phi. split; [reflexivity|]. split; [exact R|]. split; [exact Q|]. split; [auto|]. intros ? ? [].
    - apply NoDup_app_inv in N. destruct N as (N1 & N2 & N3). destruct (H sg G (or_introl eq_refl)) as [HG1 HG2].
      destruct (nquo_group ord h s G sg OV phi s' g R Q N1 HG1 HG2) as (g1 & s1 & phi1 & -> & R1 & Q1 & P1 & P2 & P3).
      assert (FX : forall sg' G', In (sg', G') m -> forall x, In x G' -> phi1 x = x).
      { intros sg' G' I x J. destruct (H sg' G' (or_intror I)) as [H1 _]. assert (F : phi x = x) by (apply (q_V _ _ _ _ _ (proj1 Q)), H1, J). rewrite P1; [exact F|]. rewrite F. intros K. apply (N3 x K). apply in_concat. exists G'. split; [apply in_map_iff; exists (sg', G'); auto|exact J]. }
      destruct (IH phi1 s1 g1 R1 Q1 N2) as (g' & s'' & phi' & E & R' & Q' & P4 & P5).
      + intros sg' G' I. destruct (H sg' G' (or_intror I)) as [H1 H2]. split; [|exact H2]. intros x J. destruct (H1 x J) as [H3 H4]. split; [|exact H4]. apply (q_V _ _ _ _ _ (proj1 Q1)). split; [apply (q_V _ _ _ _ _ (proj1 Q)), H3|apply (FX sg' G' I x J)].
      + assert (GM : forall v, In v G -> phi' v = phi1 v) by (intros v I; apply P4; intros K; apply (N3 (phi1 v)); [apply P2, I|exact K]).
        exists g', s'', phi'. split; [exact E|]. split; [exact R'|]. split; [exact Q'|]. split.
        * intros v NI. rewrite in_app_iff in NI. rewrite P4; rewrite (P1 v) by tauto; [reflexivity|tauto].
        * intros sg' G' [[= -> ->]|I]; [|apply (P5 sg' G' I)]. split; [intros v I; rewrite GM by exact I; apply P2, I|]. intros x y I J. rewrite !GM by assumption. apply P3; assumption.
  Qed.

  (** ** The groups are the classes of [nsigeq] *)
  Definition nsig (g : naut A) (q : nat) : nsignature :=
    (na_final g q, na_symbol g q, match NA_out_edges g q with Ok es => sof (map (fun e => (na_symbol g (target e), target e)) es) | Raise _ => [] end).
  Lemma make_nsig (g : naut A) s q : narep g s -> In q (aa_V s) -> make_nsignature g q = Ok (nsig g q).
  Proof. intros R I. destruct (In_obs_nout g s q R I) as (es & E & _). unfold make_nsignature, nsig. rewrite E. reflexivity. Qed.
  Lemma nsig_eqb_spec (g : naut A) s x y : narep g s -> In x (aa_V s) -> In y (aa_V s) -> nsig_eqb (nsig g x) (nsig g y) = true <-> nsigeq s x y.
  Proof.
    intros R Vx Vy. assert (HF : forall q, na_final g q = aa_final s q) by apply R.
    assert (M : forall q a r, In q (aa_V s) -> In (a, r) (snd (nsig g q)) <-> In (Edge q r a) (aa_T s)).
    { intros q a r Vq. unfold nsig. cbn [snd]. destruct (In_obs_nout g s q R Vq) as (es & E & M). rewrite E, In_sof, in_map_iff. split.
      - intros ([p t b] & [= <- <-] & I). apply M in I. cbn [source target] in *. destruct I as [-> I]. rewrite (narep_sym g s t R), <- (narep_label g s R _ _ _ I). exact I.
      - intros I. exists (Edge q r a). cbn [target]. rewrite (narep_sym g s r R), <- (narep_label g s R _ _ _ I). split; [reflexivity|]. apply M. auto. }
    unfold nsig_eqb, nsigeq, sigeq. rewrite andb_true_iff, set_eqb_spec. unfold nsig at 1 2. cbn [fst]. rewrite !HF, !(narep_sym g s _ R). split.
    - intros [H1 H2]. apply (proj1 (eqb_eq _ _)) in H1. pose proof (f_equal fst H1) as H4. pose proof (f_equal snd H1) as H3. cbn [fst snd] in H3, H4. split; [exact H3|]. split; [exact H4|]. intros a r. rewrite <- !M by assumption. apply H2.
    - intros (H1 & H2 & H3). split; [apply (proj2 (eqb_eq _ _)); congruence|]. intros [a r]. rewrite !M by assumption. apply H3.
  Qed.
  Lemma nsig_eqb_sym (x y : @nsignature A) : nsig_eqb x y = true -> nsig_eqb y x = true.
  Proof. unfold nsig_eqb. rewrite !andb_true_iff, !set_eqb_spec. intros [H1 H2]. split; [|intros a; symmetry; apply H2]. apply (proj1 (eqb_eq _ _)) in H1. rewrite H1. apply eqb_refl. Qed.
  Lemma nsig_eqb_trans (x y z : @nsignature A) : nsig_eqb x y = true -> nsig_eqb y z = true -> nsig_eqb x z = true.
  Proof. unfold nsig_eqb. rewrite !andb_true_iff, !set_eqb_spec. intros [H1 H2] [H3 H4]. split; [|intros a; rewrite H2; apply H4]. apply (proj1 (eqb_eq _ _)) in H1. rewrite H1. exact H3. Qed.

  Definition nagg_ok (g : naut A) (l : list nat) (m : list (nsignature * list nat)) : Prop :=
    (forall k G, In (k, G) m -> forall q, In q G -> nsig_eqb (nsig g q) k = true) /\
    ForallOrdPairs (fun a b => nsig_eqb (fst b) (fst a) = false) m /\ Permutation (concat (map snd m)) l.
  Lemma nagg_add_ok (g : naut A) m q : forall l, nagg_ok g l m -> ~ In q l -> nagg_ok g (q :: l) (nagg_add m (nsig g q) q) /\
    forall k, In k (map fst (nagg_add m (nsig g q) q)) -> In k (map fst m) \/ (k = nsig g q).
  Proof.
    induction m as [|[k G] m IH]; intros l (H1 & H2 & H3) NI; cbn [nagg_add].
    - cbn in H3. split; [|cbn; intros ? [<-|[]]; auto]. split; [|split].
      + intros k G [[= <- <-]|[]] x [<-|[]]. apply andb_true_iff. split; [apply eqb_refl|apply set_eqb_spec; tauto].
      + repeat constructor.
      + cbn. rewrite <- H3. reflexivity.
    - inversion H2 as [|? ? H4 H5]; subst. cbn [map snd concat] in H3. assert (NG : ~ In q G) by (intros I; apply NI; apply (Permutation_in _ H3), in_or_app; auto).
      destruct (nsig_eqb (nsig g q) k) eqn:E.
      + split; [|cbn; tauto]. split; [|split].
        * intros k' G' [[= <- <-]|I] x J; [|apply (H1 k' G' (or_intror I) x J)]. apply In_sadd in J. destruct J as [->|J]; [exact E|apply (H1 k G (or_introl eq_refl) x J)].
        * constructor; [|exact H5]. apply Forall_forall. intros b I. rewrite Forall_forall in H4. apply (H4 b I).
        * cbn [map snd concat]. unfold sadd. destruct (mem_reflect q G); [contradiction|]. rewrite <- H3. rewrite <- app_assoc. cbn. symmetry. apply Permutation_middle.
      + destruct (IH (concat (map snd m))) as [(K1 & K2 & K3) K4].
        * split; [intros k' G' I; apply (H1 k' G'); right; exact I|]. split; [exact H5|reflexivity].
        * intros I. apply NI, (Permutation_in _ H3), in_or_app. auto.
        * split; [split; [|split]|].
          -- intros k' G' [[= <- <-]|I]; [apply (H1 k G (or_introl eq_refl))|apply (K1 k' G' I)].
          -- constructor; [|exact K2]. apply Forall_forall. intros [k' G'] I. cbn. destruct (K4 k' (in_map fst _ _ I)) as [J| ->]; [|exact E]. apply in_map_iff in J. destruct J as ([k2 G2] & [= <-] & J). rewrite Forall_forall in H4. apply (H4 _ J).
          -- cbn [map snd concat]. rewrite K3, <- H3. symmetry. apply Permutation_middle.
          -- cbn [map]. intros k' [<-|I]; [left; left; reflexivity|]. destruct (K4 k' I); [left; right; assumption|auto].
  Qed.
  Lemma naggregates_ok (g : naut A) s l : narep g s -> NoDup l -> (forall v, In v l -> In v (aa_V s)) -> exists m, naggregates g l = (m, Ok tt) /\ nagg_ok g (rev l) m.
  Proof.
    intros R N V. unfold naggregates.
    assert (G : forall l m acc, (forall v, In v l -> In v (aa_V s)) -> nagg_ok g acc m -> NoDup (rev l ++ acc) ->
      exists m', foreach (fun m q => match make_nsignature g q with Ok s => (nagg_add m s q, Ok tt) | Raise x => (m, Raise x) end) m l = (m', Ok tt) /\ nagg_ok g (rev l ++ acc) m').
    { clear l N V. induction l as [|q l IH]; intros m acc V H N; cbn [foreach rev app]; [exists m; auto|]. cbn [rev] in N. rewrite <- app_assoc in *. cbn [app] in *. rewrite (make_nsig g s q R (V q (or_introl eq_refl))).
      destruct (IH (nagg_add m (nsig g q) q) (q :: acc)) as (m' & E & H'); [intros v J; apply V; right; exact J| |exact N|exists m'; auto].
      apply nagg_add_ok; [exact H|]. apply NoDup_app_inv in N. destruct N as (_ & N & _). inversion N. assumption. }
    specialize (G l [] [] V). rewrite app_nil_r in G. apply G; [split; [intros ? ? []|split; [constructor|reflexivity]]|]. apply (Permutation_NoDup (Permutation_rev l)), N.
  Qed.

  Lemma nquo_id h s : nquo h (fun v => v) s s.
  Proof. split; [apply quo_id|reflexivity]. Qed.
  Lemma nlevel_merge ord h s (g : naut A) l : valid_order ord -> narep g s -> NoDup l -> (forall v, In v l <-> In v (aa_V s) /\ ht v = h) ->
    exists m g' s' phi, naggregates g l = (m, Ok tt) /\ foreach (nmerge_group ord) g m = (g', Ok tt) /\ narep g' s' /\ nquo h phi s s' /\
      forall x y, In x l -> In y l -> nsigeq s x y -> phi x = phi y.
  Proof.
    intros OV R N H. assert (LV : forall v, In v l -> In v (aa_V s)) by (intros v I; apply H, I).
    destruct (naggregates_ok g s l R N LV) as (m & EM & A1 & A2 & A3). pose proof (Permutation_trans A3 (Permutation_sym (Permutation_rev l))) as A4.
    assert (IN : forall k G x, In (k, G) m -> In x G -> In x l).
    { intros k G x I J. apply (Permutation_in _ A4), in_concat. exists G. split; [apply in_map_iff; exists (k, G); auto|exact J]. }
    destruct (nquo_groups ord h s m OV (fun v => v) s g R (nquo_id h s)) as (g' & s' & phi & E & R' & Q & _ & P).
    - apply (Permutation_NoDup (Permutation_sym A4)), N.
    - intros k G I. split; [intros x J; apply H, (IN k G x I J)|]. intros x y J1 J2. apply (nsig_eqb_spec g s x y R); [apply LV, (IN k G x I J1)|apply LV, (IN k G y I J2)|]. apply (nsig_eqb_trans _ k); [apply (A1 k G I x J1)|apply nsig_eqb_sym, (A1 k G I y J2)].
    - exists m, g', s', phi. split; [exact EM|]. split; [exact E|]. split; [exact R'|]. split; [exact Q|]. intros x y I J SG. apply (nsig_eqb_spec g s x y R (LV x I) (LV y J)) in SG.
      apply (Permutation_in _ (Permutation_sym A4)), in_concat in I. apply (Permutation_in _ (Permutation_sym A4)), in_concat in J. destruct I as (G1 & I & I'), J as (G2 & J & J'). apply in_map_iff in I, J. destruct I as ([k1 G1'] & E1 & I), J as ([k2 G2'] & E2 & J). cbn in E1, E2. subst G1' G2'.
      assert (SK : nsig_eqb k1 k2 = true /\ nsig_eqb k2 k1 = true).
      { pose proof (A1 _ _ I _ I') as B1. pose proof (A1 _ _ J _ J') as B2. assert (B3 : nsig_eqb k1 k2 = true) by (apply (nsig_eqb_trans _ (nsig g x)); [apply nsig_eqb_sym, B1|apply (nsig_eqb_trans _ (nsig g y)); assumption]). split; [exact B3|apply nsig_eqb_sym, B3]. }
      destruct (ForallOrdPairs_In A2 _ _ I J) as [EQ|[EQ|EQ]]; cbn in EQ; [|destruct SK; congruence|destruct SK; congruence]. injection EQ as <- <-. apply (proj2 (P k1 G1 I) x y I' J').
  Qed.

  (** ** The loop *)
  Record ninv (s0 : aaut) (h : nat) (todo : list nat) (s : aaut) : Prop := {
    j_q0 : aa_q0 s = aa_q0 s0;
    j_final : aa_final s = aa_final s0;
    j_V : forall v, In v (aa_V s) -> In v (aa_V s0);
    j_same : forall v, In v (aa_V s) -> same_words s0 s v v;
    j_down : forall p r a, In (Edge p r a) (aa_T s) -> ht r < ht p;
    j_next : forall p n, In p (aa_V s) -> ht p = S n -> exists r a, In (Edge p r a) (aa_T s) /\ ht r = n;
    j_todo : NoDup todo /\ forall v, In v todo <-> In v (aa_V s) /\ ht v = h;
    j_uniq : forall x y, In x (aa_V s) -> In y (aa_V s) -> ht x < h -> nsigeq s x y -> x = y;
    j_removed : forall v, In v (aa_V s0) -> ~ In v (aa_V s) -> exists q, In q (aa_V s) /\ (q < v /\ ht q = ht v) /\ sym q = sym v /\ same_words s0 s0 q v }.
  Lemma ninv_step ord s0 h todo l s (g : naut A) : valid_order ord -> narep g s -> ninv s0 h todo s -> Permutation l todo ->
    exists m g' s', naggregates g l = (m, Ok tt) /\ foreach (nmerge_group ord) g m = (g', Ok tt) /\ narep g' s' /\
      ninv s0 (S h) (sof (filter (fun p => ht p =? S h) (flat_map (fun q => map source (INA_in_edges g' q)) todo))) s'.
  Proof.
    intros OV R I PL. destruct (j_todo _ _ _ _ I) as [TN TI].
    destruct (nlevel_merge ord h s g l OV R) as (m & g' & s' & phi & EM & E & R' & [Q QS] & U).
    { apply (Permutation_NoDup (Permutation_sym PL)), TN. }
    { intros v. rewrite <- TI. split; apply Permutation_in; [exact PL|symmetry; exact PL]. }
    exists m, g', s'. split; [exact EM|]. split; [exact E|]. split; [exact R'|].
    assert (VV : forall v, In v (aa_V s') -> In v (aa_V s) /\ phi v = v) by (intros v; apply (q_V _ _ _ _ _ Q)).
    assert (VP : forall v, In v (aa_V s) -> In (phi v) (aa_V s')) by (intros v J; apply (q_V _ _ _ _ _ Q); split; [apply (q_in _ _ _ _ _ Q), J|apply (q_idem _ _ _ _ _ Q)]).
    assert (DOWN : forall p r a, In (Edge p r a) (aa_T s') -> ht r < ht p).
    { intros p r a J. apply (q_T _ _ _ _ _ Q) in J. destruct J as (_ & r0 & J & <-). rewrite (q_ht _ _ _ _ _ Q). apply (j_down _ _ _ _ I _ _ _ J). }
    assert (NEXT : forall p n, In p (aa_V s') -> ht p = S n -> exists r a, In (Edge p r a) (aa_T s') /\ ht r = n).
    { intros p n J Hp. destruct (VV p J) as [J1 J2]. destruct (j_next _ _ _ _ I p n J1 Hp) as (r & a & T & Hr). exists (phi r), a. rewrite (q_ht _ _ _ _ _ Q). split; [|exact Hr]. apply (q_T _ _ _ _ _ Q). split; [exact J2|]. exists r. auto. }
    split.
    - rewrite (q_q0 _ _ _ _ _ Q). apply (j_q0 _ _ _ _ I).
    - rewrite (q_final _ _ _ _ _ Q). apply (j_final _ _ _ _ I).
    - intros v J. apply (j_V _ _ _ _ I), VV, J.
    - intros v J. destruct (VV v J) as [J1 J2]. apply (same_trans _ s _ _ v); [apply (j_same _ _ _ _ I v J1)|]. rewrite <- J2 at 2. apply (quo_same _ _ _ _ _ _ Q).
    - exact DOWN.
    - exact NEXT.
    - split; [apply NoDup_sof|]. intros v. rewrite In_sof, filter_In, Nat.eqb_eq, in_flat_map. split.
      + intros [(q & J1 & J2) Hv]. apply in_map_iff in J2. destruct J2 as ([p r a] & <- & J2). apply (In_obs_nin _ _ _ _ R') in J2. split; [apply (narep_closed _ _ R' _ _ _ (proj2 J2))|exact Hv].
      + intros [J Hv]. split; [|exact Hv]. destruct (NEXT v h J Hv) as (r & a & T & Hr). exists r. split.
        * apply TI. split; [apply VV, (narep_closed _ _ R' _ _ _ T)|exact Hr].
        * apply in_map_iff. exists (Edge v r a). split; [reflexivity|]. apply (In_obs_nin _ _ _ _ R'). auto.
    - intros x y Jx Jy Lx [SY SG].
      assert (Hxy : ht x = ht y).
      { assert (LE : forall x y, In x (aa_V s') -> sigeq s' x y -> ht x <= ht y).
        { clear - NEXT DOWN. intros x y Vx [_ SG]. destruct (ht x) as [|n] eqn:E; [lia|]. destruct (NEXT x n Vx E) as (r & a & T & <-). apply SG, DOWN in T. lia. }
        pose proof (LE x y Jx SG). pose proof (LE y x Jy (sigeq_sym _ _ _ SG)). lia. }
      destruct (VV x Jx) as [Vx Fx], (VV y Jy) as [Vy Fy].
      assert (LOW : forall v, ht v <= h -> phi v = v -> forall a r, In (Edge v r a) (aa_T s') <-> In (Edge v r a) (aa_T s)).
      { intros v Lv Fv a r. rewrite (q_T _ _ _ _ _ Q). split.
        - intros (_ & r0 & T & Er). pose proof (j_down _ _ _ _ I _ _ _ T) as D. rewrite (q_level _ _ _ _ _ Q) in Er by lia. subst r0. exact T.
        - intros T. split; [exact Fv|]. exists r. split; [exact T|]. pose proof (j_down _ _ _ _ I _ _ _ T) as D. apply (q_level _ _ _ _ _ Q). lia. }
      assert (SG0 : nsigeq s x y).
      { split; [exact SY|]. destruct SG as [S1 S2]. split; [rewrite <- (q_final _ _ _ _ _ Q); exact S1|]. intros a r. rewrite <- (LOW x), <- (LOW y) by (lia || assumption). apply S2. }
      destruct (Nat.eq_dec (ht x) h) as [Hx|Nx]; [|apply (j_uniq _ _ _ _ I x y); auto; lia].
      rewrite <- Fx, <- Fy. apply U; [| |exact SG0]; apply (Permutation_in _ (Permutation_sym PL)), TI; split; auto; lia.
    - intros v V0 NV. destruct (in_dec Nat.eq_dec v (aa_V s)) as [Vv|NVv].
      + exists (phi v). split; [apply VP, Vv|]. split; [|split; [apply QS|]].
        * pose proof (q_le _ _ _ _ _ Q v). assert (phi v <> v) by (intros F; apply NV; rewrite <- F; apply VP, Vv). split; [lia|apply (q_ht _ _ _ _ _ Q)].
        * apply (same_trans _ s _ _ (phi v)); [apply (j_same _ _ _ _ I), (q_in _ _ _ _ _ Q), Vv|]. apply (same_trans _ s _ _ v); [|apply same_sym, (j_same _ _ _ _ I v Vv)].
          apply (same_trans _ s' _ _ (phi v)); [|apply same_sym, (quo_same _ _ _ _ _ _ Q)]. rewrite <- (q_idem _ _ _ _ _ Q v) at 2. apply (quo_same _ _ _ _ _ _ Q).
      + destruct (j_removed _ _ _ _ I v V0 NVv) as (q & Vq & [Lq Hq] & Yq & Sq). exists (phi q). split; [apply VP, Vq|]. split; [pose proof (q_le _ _ _ _ _ Q q); rewrite (q_ht _ _ _ _ _ Q); split; [lia|exact Hq]|]. split; [rewrite QS; exact Yq|].
        apply (same_trans _ s0 _ _ q); [|exact Sq]. apply (same_trans _ s _ _ (phi q)); [apply (j_same _ _ _ _ I), (q_in _ _ _ _ _ Q), Vq|]. apply (same_trans _ s _ _ q); [|apply same_sym, (j_same _ _ _ _ I q Vq)].
        apply (same_trans _ s' _ _ (phi q)); [|apply same_sym, (quo_same _ _ _ _ _ _ Q)]. rewrite <- (q_idem _ _ _ _ _ Q q) at 2. apply (quo_same _ _ _ _ _ _ Q).
  Qed.
  Lemma nlevel_empty s0 h s : ninv s0 h [] s -> forall v, In v (aa_V s) -> (forall p r a, In (Edge p r a) (aa_T s) -> In r (aa_V s)) -> ht v < h.
  Proof.
    intros I v Vv CL. destruct (Nat.lt_ge_cases (ht v) h) as [L|G]; [exact L|]. exfalso. revert v Vv G. assert (K : forall n v, In v (aa_V s) -> ht v = n + h -> False).
    { induction n as [|n IH]; intros v Vv Hv; [destruct (j_todo _ _ _ _ I) as [_ T]; apply (T v); auto|]. destruct (j_next _ _ _ _ I v (n + h) Vv Hv) as (r & a & J & Hr). apply (IH r (CL _ _ _ J) Hr). }
    intros v Vv G. apply (K (ht v - h) v Vv). lia.
  Qed.
End M.

Section Loop.
  Context {A : Type} {EA : EqDec A}.
  Notation aaut := (aaut (option A)).
  Variables (sym : nat -> option A) (heights : dict nat nat).
  Let ht := height_of heights.
  (** [fuel]: more than the number of levels that remain *)
  Lemma nminimize_loop_spec ord ord_v s0 N : valid_order ord -> valid_order ord_v -> (forall v, In v (aa_V s0) -> ht v < N) -> forall fuel h todo (g : naut A) s, narep sym g s -> ninv sym ht s0 h todo s -> N <= h + fuel ->
    exists g' s' h', nminimize_loop fuel ord ord_v heights h todo g = Some (g', Ok (Z.of_nat h' - 1)%Z) /\ narep sym g' s' /\ ninv sym ht s0 h' [] s' /\ h <= h' /\ forall n, h <= n < h' -> exists v, In v (aa_V s0) /\ ht v = n.
  Proof.
    intros OE OV BN. induction fuel as [|fuel IH]; intros h todo g s R I F.
    - destruct todo as [|x todo]; cbn [nminimize_loop]; [exists g, s, h; split; [reflexivity|split; [exact R|split; [exact I|split; [lia|intros; lia]]]]|].
      exfalso. assert (J : In x (aa_V s) /\ ht x = h) by (apply (j_todo _ _ _ _ _ _ I); left; reflexivity). pose proof (BN x (j_V _ _ _ _ _ _ I x (proj1 J))). lia.
    - destruct todo as [|x todo]; cbn [nminimize_loop]; [exists g, s, h; split; [reflexivity|split; [exact R|split; [exact I|split; [lia|intros; lia]]]]|].
      destruct (ninv_step sym ht ord s0 h (x :: todo) (ord_v fuel (x :: todo)) s g OE R I (OV _ _)) as (m & g' & s' & -> & -> & R' & I').
      destruct (IH _ _ g' s' R' I' ltac:(lia)) as (g2 & s2 & h2 & E & R2 & I2 & L2 & K2). exists g2, s2, h2. split; [exact E|]. split; [exact R2|]. split; [exact I2|]. split; [lia|].
      intros n Hn. destruct (Nat.eq_dec n h) as [->|]; [|apply K2; lia]. exists x. destruct (proj1 (proj2 (j_todo _ _ _ _ _ _ I) x) (or_introl eq_refl)) as [V1 H1]. split; [apply (j_V _ _ _ _ _ _ I), V1|exact H1].
  Qed.
End Loop.
