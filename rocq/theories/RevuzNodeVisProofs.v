(** Lemmas on the visitor of revuz_minimize on an IncidenceNodeAutomaton. The proofs follow RevuzVisProofs.v. *)
From Coq Require Import ZArith.
From Verif Require Import Graph GraphProofs Automaton AutomatonSpec AutomatonProofs AutomatonProofs2 AutomatonProofs3 NodeAut Heap Revuz RevuzSpec RevuzProofs RevuzProofs2 RevuzProofs3 RevuzNode RevuzNodeProofs RevuzLab RevuzLabProofs RevuzNodeLab RevuzNodeLabProofs RevuzVis RevuzVisProofs RevuzNodeVis RevuzNodeVisSpec Base BaseProofs.

(** ** The visitor changes nothing *)
Section Erase.
  Context {A B C : Type} {EA : EqDec A} {EB : EqDec B} {EC : EqDec C}.
  Variables (pv : option (nat -> B)) (pe : option (edge (option A) -> C)).
  Definition nerase {X} (p : (naut A * nrtrace A) * res X) : naut A * res X := (fst (fst p), snd p).
  Lemma nerase_foreach {E} (f : naut A * nrtrace A -> E -> (naut A * nrtrace A) * res unit) (f0 : naut A -> E -> naut A * res unit) l :
    (forall st e, nerase (f st e) = f0 (fst st) e) -> forall st, nerase (foreach f st l) = foreach f0 (fst st) l.
  Proof.
    intros H. induction l as [|e l IH]; intros st; cbn [foreach]; [reflexivity|]. rewrite <- (H st e). destruct (f st e) as [st' [[]|x]]; unfold nerase at 2; cbn [fst snd]; [apply IH|reflexivity].
  Qed.
  Lemma nerase_move q1 st e : nerase (nvmove_edge q1 st e) = nmove_edge q1 (fst st) e.
  Proof.
    destruct st as [g tr]. unfold nvmove_edge, nmove_edge. cbn [fst]. destruct (INA_remove_edge g e) as [g1 [[]|x]]; [|reflexivity].
    destruct (INA_add_edge g1 (source e) q1) as [g2 [[y b]|x]]; reflexivity.
  Qed.
  Lemma nerase_merge ord q1 st q2 : nerase (nvmerge ord q1 st q2) = nmerge ord q1 (fst st) q2.
  Proof.
    destruct st as [g tr]. unfold nvmerge, nmerge. cbn [fst]. pose proof (nerase_foreach (nvmove_edge q1) (nmove_edge q1) (ord q2 (sof (INA_in_edges g q2))) (nerase_move q1) (g, tr ++ [(MergingStates q1 q2, g)])) as K. cbn [fst] in K.
    rewrite <- K. destruct (foreach (nvmove_edge q1) (g, tr ++ [(MergingStates q1 q2, g)]) (ord q2 (sof (INA_in_edges g q2)))) as [[g1 tr1] [[]|x]]; unfold nerase at 2; cbn [fst snd]; [|reflexivity].
    destruct (INA_remove_vertex g1 q2) as [g2 [[]|x]]; reflexivity.
  Qed.
  Lemma nerase_group ord st (G : @nlsignature A B C * list nat) : nerase (nvmerge_group ord st G) = nlmerge_group ord (fst st) G.
  Proof.
    unfold nvmerge_group, nlmerge_group. destruct (length (snd G) <? 2); [reflexivity|]. destruct (py_sorted Nat.ltb (snd G)) as [|q1 rest]; [reflexivity|]. apply nerase_foreach, nerase_merge.
  Qed.
  Lemma nerase_loop ord ord_v m fuel : forall h todo st, option_map nerase (nvminimize_loop pv pe fuel ord ord_v m h todo st) = nlminimize_loop pv pe fuel ord ord_v m h todo (fst st).
  Proof.
    induction fuel as [|fuel IH]; intros h todo st; destruct todo as [|q todo]; try reflexivity. cbn [nvminimize_loop nlminimize_loop]. set (todo' := q :: todo).
    destruct (nlaggregates pv pe (fst st) (ord_v fuel todo')) as [ag [[]|x]]; [|reflexivity].
    rewrite <- (nerase_foreach (nvmerge_group ord) (nlmerge_group ord) ag (nerase_group ord) st).
    destruct (foreach (nvmerge_group ord) st ag) as [st' [[]|x]]; unfold nerase at 2; cbn [fst snd]; [apply IH|reflexivity].
  Qed.
  Lemma nerase_minimize fuel ord ord_v leaves g : option_map nerase (nvrevuz_minimize pv pe fuel ord ord_v leaves g) = nlrevuz_minimize pv pe fuel ord ord_v leaves g.
  Proof.
    unfold nvrevuz_minimize, nlrevuz_minimize. destruct (revuz_height (NA_vertices g) (NA_out_degree g) (INA_in_edges g) fuel ord_v [] []) as [[r m]|]; [|reflexivity]. apply nerase_loop.
  Qed.
End Erase.

Section Told.
  Context {A B C : Type} {EA : EqDec A} {EB : EqDec B} {EC : EqDec C}.
  Variable sym : nat -> option A.
  Variables (pv : option (nat -> B)) (pe : option (edge (option A) -> C)).
  Notation lab := (vlab sym pv).
  Notation nshows := (nshows sym).
  Notation nmoved := (nmoved sym).
  Notation ntold := (ntold sym lab).
  Lemma nshows_rep (g : naut A) s : narep sym g s -> nshows g (aa_V s) (aa_T s).
  Proof. intros R. pose proof (narep_V sym g s R) as EV. split; [intros q; rewrite EV; tauto|]. split; [intros q _; apply (narep_sym sym g s q R)|]. intros e. apply (In_obs_nedges sym g s e R). Qed.

  Lemma nvmove_spec q1 tr (g : naut A) s e : narep sym g s -> In e (aa_T s) -> In q1 (aa_V s) -> sym q1 = sym (target e) ->
    exists g' s', nvmove_edge q1 (g, tr) e = ((g', tr ++ [(MoveTransition e (Some (Edge (source e) q1 (distinguisher e))), g')]), Ok tt) /\ narep sym g' s' /\ aa_V s' = aa_V s /\ aa_q0 s' = aa_q0 s /\ aa_final s' = aa_final s /\
      forall x, In x (aa_T s') <-> (In x (aa_T s) /\ x <> e) \/ x = Edge (source e) q1 (distinguisher e).
  Proof.
    intros R I V1 SY. unfold nvmove_edge. pose proof (narep_closed sym _ _ R (source e) (target e) (distinguisher e)) as CL. assert (CE : In (Edge (source e) (target e) (distinguisher e)) (aa_T s)) by (destruct e; exact I). specialize (CL CE).
    pose proof (narep_label sym _ _ R _ _ _ CE) as LB.
    assert (KEY : forall x, In x (aa_T s) -> source x = source e -> distinguisher x = distinguisher e -> x = e).
    { intros [p r a] J E1 E2. cbn in E1, E2. subst p a. rewrite (narep_det sym _ _ R _ _ _ _ J CE). destruct e; reflexivity. }
    destruct R as (R & RQ & RF).
    destruct (NA_step g _ (NRemoveEdge e) R) as [R1 O1]; [left; exists e; cbn; auto|]. destruct (INA_q0 g (NRemoveEdge e)) as [RQ1 RF1].
    destruct s as [k V T q0 f]. cbn [INA_call ns_step aa_next aa_T aa_V aa_q0 aa_final ns_T ns_V] in *.
    assert (EX : existsb (fun x => (source x =? source e) && (target x =? target e)) T = true) by (apply existsb_exists; exists e; rewrite !Nat.eqb_refl; auto). rewrite EX in R1, O1. cbn [fst snd] in R1, O1.
    destruct (INA_remove_edge g e) as [g1 [[]|x]]; [|discriminate O1]. cbn [fst snd] in R1, RQ1, RF1. rewrite <- LB in R1.
    assert (NL : lookup (drop_key (source e) (distinguisher e) T) (source e) (sym q1) = None).
    { rewrite SY, <- LB. unfold lookup. destruct (find (same_key (source e) (distinguisher e)) (drop_key (source e) (distinguisher e) T)) as [y|] eqn:F; [|reflexivity]. apply find_some in F. destruct F as [F1 F2]. apply In_drop_key in F1. destruct (same_key_spec (source e) (distinguisher e) y); [tauto|discriminate]. }
    destruct (NA_step g1 _ (NAddEdge (source e) q1) R1) as [R2 O2]; [exact V1|]. destruct (INA_q0 g1 (NAddEdge (source e) q1)) as [RQ2 RF2].
    cbn [INA_call ns_step] in R2, O2, RQ2, RF2. rewrite NL in R2, O2. rewrite (proj2 (mem_spec _ _) (proj1 CL)) in R2, O2. cbn [fst snd] in R2, O2.
    destruct (INA_add_edge g1 (source e) q1) as [g2 [[y b]|x]]; [|discriminate O2]. cbn [fst snd] in R2, RQ2, RF2.
    exists g2, (AA k V (drop_key (source e) (distinguisher e) T ++ [Edge (source e) q1 (sym q1)]) q0 f). split; [assert (Ey : y = Some (Edge (source e) q1 (distinguisher e))) by (clear -O2 SY LB; cbn in O2; rewrite SY, <- LB in O2; congruence); rewrite Ey; reflexivity|]. split; [split; [exact R2|split; [cbn [aa_q0]; congruence|intros q; rewrite RF2, RF1; apply RF]]|]. cbn [aa_T aa_V aa_q0 aa_final]. split; [reflexivity|]. split; [reflexivity|]. split; [reflexivity|].
    intros x. rewrite in_app_iff, In_drop_key. cbn [In]. rewrite SY, <- LB. split.
    - intros [[J N]|[<-|[]]]; [left|right; reflexivity]. split; [exact J|]. intros ->. apply N. auto.
    - intros [[J N]| ->]; [left|right; left; reflexivity]. assert (NN : ~ (source x = source e /\ distinguisher x = distinguisher e)) by (intros [E1 E2]; apply N, KEY; assumption). tauto.
  Qed.
  Lemma nvmoves_spec q1 q2 L : q1 <> q2 -> sym q1 = sym q2 -> forall (g : naut A) s tr, narep sym g s -> NoDup L -> (forall e, In e L -> In e (aa_T s) /\ target e = q2) -> In q1 (aa_V s) ->
    exists g' s' mv, foreach (nvmove_edge q1) (g, tr) L = ((g', tr ++ mv), Ok tt) /\ narep sym g' s' /\ aa_V s' = aa_V s /\ aa_q0 s' = aa_q0 s /\ aa_final s' = aa_final s /\ nmoved (aa_V s) q1 q2 (aa_T s) mv (aa_T s') /\
      forall x, In x (aa_T s') -> In x (aa_T s) /\ ~ In x L \/ target x = q1.
  Proof.
    intros N12 SY. induction L as [|e L IH]; intros g s tr R N H V1; cbn [foreach].
    - exists g, s, []. rewrite app_nil_r. split; [reflexivity|]. split; [exact R|]. split; [reflexivity|]. split; [reflexivity|]. split; [reflexivity|]. split; [constructor|]. intros x I. left. split; [exact I|intros []].
    - inversion N as [|? ? N1 N2]; subst. destruct (H e (or_introl eq_refl)) as [I T2].
      destruct (nvmove_spec q1 tr g s e R I V1 ltac:(congruence)) as (g1 & s1 & -> & R1 & EV1 & EQ1 & EF1 & ET1). cbn iota beta.
      destruct (IH g1 s1 (tr ++ [(MoveTransition e (Some (Edge (source e) q1 (distinguisher e))), g1)]) R1 N2) as (g2 & s2 & mv & EQF & R2 & EV2 & EQ2 & EF2 & MV & ET2).
      + intros x J. destruct (H x (or_intror J)) as [J1 J2]. split; [|exact J2]. apply ET1. left. split; [exact J1|]. intros ->. contradiction.
      + rewrite EV1. exact V1.
      + exists g2, s2, ((MoveTransition e (Some (Edge (source e) q1 (distinguisher e))), g1) :: mv). split; [etransitivity; [exact EQF|]; rewrite <- app_assoc; reflexivity|]. split; [exact R2|]. split; [congruence|]. split; [congruence|]. split; [congruence|]. split.
        * destruct e as [p r a]. cbn [source target distinguisher] in *. subst r. apply nmoved_cons with (E1 := aa_T s1); [exact I|exact ET1|rewrite <- EV1; apply nshows_rep, R1|rewrite <- EV1; exact MV].
        * intros x J. apply ET2 in J. destruct J as [[J K]|J]; [|right; exact J]. apply ET1 in J. destruct J as [[J J']| ->]; [left; split; [exact J|]; intros [<-|J2]; auto|right; reflexivity].
  Qed.
  Lemma ntold_app final V E t1 V1 (E1 : list (edge (option A))) : ntold final V E t1 V1 E1 -> forall t2 V2 E2, ntold final V1 E1 t2 V2 E2 -> ntold final V E (t1 ++ t2) V2 E2.
  Proof.
    induction 1 as [V E|V E q1 q2 g0 moves E1 g1 V2 E2 g2 tr V' E' L V1' V2' F S S0 M T1 S1 EV EE S2 T IH]; intros t2 V3 E3 T3; [exact T3|].
    cbn [app]. rewrite <- app_assoc. cbn [app]. eapply ntold_merge; eauto.
  Qed.
  Lemma nvmerge_spec ord q1 q2 (g : naut A) s tr : valid_order ord -> narep sym g s -> q1 < q2 -> In q1 (aa_V s) -> In q2 (aa_V s) -> lab q1 = lab q2 -> nsigeq sym s q1 q2 ->
    exists g' s' blk, nvmerge ord q1 (g, tr) q2 = ((g', tr ++ blk), Ok tt) /\ narep sym g' s' /\ (forall x, In x (aa_V s') <-> In x (aa_V s) /\ x <> q2) /\ aa_final s' = aa_final s /\
      ntold (aa_final s) (aa_V s) (aa_T s) blk (aa_V s') (aa_T s') /\
      forall p r a, In (Edge p r a) (aa_T s') <-> p <> q2 /\ exists r0, In (Edge p r0 a) (aa_T s) /\ redirect q1 q2 r0 = r.
  Proof.
    intros OV R L12 V1 V2 SL [SY [SF SE]]. assert (N : q1 <> q2) by lia. destruct (nmerge_spec sym ord q1 q2 g s OV R N SY V1) as (g3 & s3 & EM & R3 & _ & _ & _ & ET3).
    pose proof (nerase_merge ord q1 (g, tr) q2) as EM'. cbn [fst] in EM'. rewrite EM in EM'. unfold nvmerge in *.
    assert (HL : forall e, In e (ord q2 (sof (INA_in_edges g q2))) <-> target e = q2 /\ In e (aa_T s)).
    { intros e. rewrite <- (In_obs_nin sym g s q2 e R), <- (In_sof e (INA_in_edges g q2)). split; apply Permutation_in; [|symmetry]; apply OV. }
    destruct (nvmoves_spec q1 q2 (ord q2 (sof (INA_in_edges g q2))) N SY g s (tr ++ [(MergingStates q1 q2, g)]) R) as (g1 & s1 & mv & EF & R1 & EV & EQ & EFI & MV & ET).
    - apply (Permutation_NoDup (Permutation_sym (OV _ _))), NoDup_sof.
    - intros e I. apply HL in I. tauto.
    - exact V1.
    - rewrite EF in EM' |- *. destruct (nremove_vertex sym g1 s1 q2 R1) as (g2 & E2 & R2). rewrite E2 in EM' |- *. unfold nerase in EM'. cbn [fst snd] in EM'. injection EM' as ->.
      exists g3. eexists. exists ((MergingStates q1 q2, g) :: mv ++ (RemoveVertex q2, g1) :: [(StatesMerged q1 q2, g3)]). rewrite <- !app_assoc. split; [reflexivity|]. split; [exact R2|]. cbn [aa_V aa_final aa_T].
      assert (EV' : forall x, In x (filter (fun v => negb (v =? q2)) (aa_V s1)) <-> In x (aa_V s) /\ x <> q2).
      { intros x. rewrite filter_In, EV, negb_true_iff, Nat.eqb_neq. tauto. }
      assert (NT : forall e, In e (aa_T s1) -> target e <> q2).
      { intros e I. apply ET in I. destruct I as [[I K]|K]; [|congruence]. intros K'. apply K, HL. auto. }
      split; [exact EV'|]. split; [exact EFI|]. pose proof (nshows_rep _ _ R2) as S2. cbn [aa_V aa_T] in S2. split.
      + eapply ntold_merge with (E1 := aa_T s1) (V2 := filter (fun v => negb (v =? q2)) (aa_V s1)); [exact L12|exact V1|exact V2|auto|exact SE|apply nshows_rep, R|exact MV|exact NT|rewrite <- EV; apply nshows_rep, R1|exact EV'| |exact S2|constructor].
        intros e. unfold drop_incident. rewrite filter_In. rewrite negb_true_iff, orb_false_iff, !Nat.eqb_neq. specialize (NT e). tauto.
      + intros p r a. rewrite <- ET3. rewrite <- (In_obs_nedges sym g3 s3 _ R3). apply iff_sym. apply (In_obs_nedges sym g3 _ _ R2).
  Qed.

  (** ** The quotient at one level *)
  Lemma nlq_id (g : naut A) s : narep sym g s -> lq (fun v => v) s s.
  Proof.
    intros R. split; [auto|]. split; [reflexivity|]. intros p x a. split; [intros I; split; [apply (narep_closed sym g s R _ _ _ I)|eauto]|intros (_ & r & I & ->); exact I].
  Qed.
  Lemma nlq_sig phi (s s' : aaut (option A)) x y : lq phi s s' -> In x (aa_V s') -> In y (aa_V s') -> nsigeq sym s x y -> nsigeq sym s' x y.
  Proof. intros Q Vx Vy [SY SG]. split; [exact SY|apply (lq_sig phi s s' x y Q Vx Vy SG)]. Qed.
  Lemma nvmerges_spec ord s q1 rest : valid_order ord -> forall phi s' (g : naut A) tr, narep sym g s' -> lq phi s s' -> NoDup rest -> In q1 (aa_V s') ->
    (forall x, In x rest -> In x (aa_V s') /\ q1 < x /\ lab q1 = lab x /\ nsigeq sym s q1 x) ->
    exists phi' g' s2 blk, foreach (nvmerge ord q1) (g, tr) rest = ((g', tr ++ blk), Ok tt) /\ narep sym g' s2 /\ lq phi' s s2 /\ ntold (aa_final s) (aa_V s') (aa_T s') blk (aa_V s2) (aa_T s2) /\
      forall x, In x (aa_V s2) <-> In x (aa_V s') /\ ~ In x rest.
  Proof.
    intros OV. induction rest as [|q2 rest IH]; intros phi s' g tr R Q N V1 H; cbn [foreach].
    - exists phi, g, s', []. rewrite app_nil_r. split; [reflexivity|]. split; [exact R|]. split; [exact Q|]. split; [constructor|]. cbn. tauto.
    - inversion N as [|? ? N1 N2]; subst. destruct (H q2 (or_introl eq_refl)) as (V2 & L12 & SL & SG).
      destruct (nvmerge_spec ord q1 q2 g s' tr OV R L12 V1 V2 SL (nlq_sig _ _ _ _ _ Q V1 V2 SG)) as (g1 & s1 & blk & -> & R1 & EV & EF & T1 & ET).
      assert (Q1 : lq (fun r => redirect q1 q2 (phi r)) s s1).
      { destruct Q as (QV & QF & QE). split; [intros x I; apply QV, EV, I|]. split; [congruence|]. intros p x a. rewrite ET, EV. split.
        - intros (Np & r0 & I & <-). apply QE in I. destruct I as (Vp & r & I & <-). split; [auto|]. exists r. auto.
        - intros ((Vp & Np) & r & I & <-). split; [exact Np|]. exists (phi r). split; [|reflexivity]. apply QE. split; [exact Vp|]. exists r. auto. }
      destruct (IH _ s1 g1 (tr ++ blk) R1 Q1 N2) as (phi' & g2 & s2 & blk2 & EQF & R2 & Q2 & T2 & EV2).
      + apply EV. split; [exact V1|lia].
      + intros x I. destruct (H x (or_intror I)) as (Vx & Lx & SX). split; [|auto]. apply EV. split; [exact Vx|]. intros ->. contradiction.
      + exists phi', g2, s2, (blk ++ blk2). split; [etransitivity; [exact EQF|]; rewrite app_assoc; reflexivity|]. split; [exact R2|]. split; [exact Q2|]. split.
        * eapply ntold_app; [|exact T2]. replace (aa_final s) with (aa_final s') by apply Q. exact T1.
        * intros x. rewrite EV2, EV. cbn [In]. split; [intros ((Vx & Nx) & Nr); split; [exact Vx|]; intros [->|I]; auto|intros (Vx & Nr); split; [split; [exact Vx|]|]; [intros ->|intros I]; auto].
  Qed.
  Lemma nvgroup_spec ord s (sg : @nlsignature A B C) G : valid_order ord -> forall phi s' (g : naut A) tr, narep sym g s' -> lq phi s s' -> NoDup G -> (forall x, In x G -> In x (aa_V s')) ->
    (forall x y, In x G -> In y G -> lab x = lab y /\ nsigeq sym s x y) ->
    exists phi' g' s2 blk, nvmerge_group ord (g, tr) (sg, G) = ((g', tr ++ blk), Ok tt) /\ narep sym g' s2 /\ lq phi' s s2 /\ ntold (aa_final s) (aa_V s') (aa_T s') blk (aa_V s2) (aa_T s2) /\
      forall x, In x (aa_V s') -> ~ In x G -> In x (aa_V s2).
  Proof.
    intros OV phi s' g tr R Q N VG SG. assert (DONE : exists phi' g' s2 blk, ((g, tr), @Ok unit tt) = ((g', tr ++ blk), Ok tt) /\ narep sym g' s2 /\ lq phi' s s2 /\ ntold (aa_final s) (aa_V s') (aa_T s') blk (aa_V s2) (aa_T s2) /\
      forall x, In x (aa_V s') -> ~ In x G -> In x (aa_V s2)).
    { exists phi, g, s', []. rewrite app_nil_r. split; [reflexivity|]. split; [exact R|]. split; [exact Q|]. split; [constructor|]. auto. }
    unfold nvmerge_group. cbn [snd]. destruct (length G <? 2); [exact DONE|]. pose proof (sorted_perm G) as P. destruct (py_sorted Nat.ltb G) as [|q1 rest] eqn:E; [exact DONE|].
    assert (N' : NoDup (q1 :: rest)) by (apply (Permutation_NoDup (Permutation_sym P)), N). inversion N' as [|? ? N1 N2]; subst.
    assert (IG : forall x, In x (q1 :: rest) -> In x G) by (intros x; apply Permutation_in, P).
    destruct (nvmerges_spec ord s q1 rest OV phi s' g tr R Q N2) as (phi' & g2 & s2 & blk & EQF & R2 & Q2 & T2 & EV2).
    - apply VG, IG. now left.
    - intros x I. split; [apply VG, IG; now right|]. split; [|apply SG; apply IG; [now left|now right]]. pose proof (sorted_head G q1 rest E x I). assert (q1 <> x) by (intros ->; contradiction). lia.
    - exists phi', g2, s2, blk. split; [exact EQF|]. split; [exact R2|]. split; [exact Q2|]. split; [exact T2|]. intros x Vx NG. apply EV2. split; [exact Vx|]. intros I. apply NG, IG. now right.
  Qed.
  Lemma nvgroups_spec ord s (m : list (@nlsignature A B C * list nat)) : valid_order ord -> forall phi s' (g : naut A) tr, narep sym g s' -> lq phi s s' -> NoDup (concat (map snd m)) -> (forall x, In x (concat (map snd m)) -> In x (aa_V s')) ->
    (forall k G x y, In (k, G) m -> In x G -> In y G -> lab x = lab y /\ nsigeq sym s x y) ->
    exists phi' g' s2 blk, foreach (nvmerge_group ord) (g, tr) m = ((g', tr ++ blk), Ok tt) /\ narep sym g' s2 /\ lq phi' s s2 /\ ntold (aa_final s) (aa_V s') (aa_T s') blk (aa_V s2) (aa_T s2).
  Proof.
    intros OV. induction m as [|[k G] m IH]; intros phi s' g tr R Q N VG SG; cbn [foreach].
    - exists phi, g, s', []. rewrite app_nil_r. split; [reflexivity|]. split; [exact R|]. split; [exact Q|]. constructor.
    - cbn [map snd concat] in N, VG. apply NoDup_app_inv in N. destruct N as (N1 & N2 & N3).
      destruct (nvgroup_spec ord s k G OV phi s' g tr R Q N1) as (phi1 & g1 & s1 & blk & -> & R1 & Q1 & T1 & KV).
      + intros x I. apply VG, in_or_app. auto.
      + intros x y. apply (SG k G). now left.
      + destruct (IH phi1 s1 g1 (tr ++ blk) R1 Q1 N2) as (phi2 & g2 & s2 & blk2 & EQF & R2 & Q2 & T2).
        * intros x I. apply KV; [apply VG, in_or_app; auto|]. intros J. apply (N3 x J I).
        * intros k' G' x y I. apply (SG k' G'). now right.
        * exists phi2, g2, s2, (blk ++ blk2). split; [etransitivity; [exact EQF|]; rewrite app_assoc; reflexivity|]. split; [exact R2|]. split; [exact Q2|]. eapply ntold_app; [exact T1|exact T2].
  Qed.
  Lemma nvloop_spec ord ord_v m fuel : valid_order ord -> valid_order ord_v -> forall h todo (g : naut A) s tr out, (forall x y, In x (aa_V s) -> In y (aa_V s) -> lab x = lab y -> sym x = sym y) -> narep sym g s -> NoDup todo -> (forall x, In x todo -> In x (aa_V s)) ->
    nvminimize_loop pv pe fuel ord ord_v m h todo (g, tr) = Some out ->
    exists g' s' tr' k, out = ((g', tr ++ tr'), Ok k) /\ narep sym g' s' /\ aa_final s' = aa_final s /\ ntold (aa_final s) (aa_V s) (aa_T s) tr' (aa_V s') (aa_T s').
  Proof.
    intros OV OVV. induction fuel as [|fuel IH]; intros h todo g s tr out RF R N VT E; destruct todo as [|q todo]; cbn [nvminimize_loop] in E; try discriminate.
    - injection E as <-. exists g, s, [], (Z.of_nat h - 1)%Z. rewrite app_nil_r. split; [reflexivity|]. split; [exact R|]. split; [reflexivity|constructor].
    - injection E as <-. exists g, s, [], (Z.of_nat h - 1)%Z. rewrite app_nil_r. split; [reflexivity|]. split; [exact R|]. split; [reflexivity|constructor].
    - set (todo' := q :: todo) in *. cbn [fst] in E. pose proof (OVV fuel todo') as PO. assert (NO : NoDup (ord_v fuel todo')) by (apply (Permutation_NoDup (Permutation_sym PO)), N).
      assert (VO : forall v, In v (ord_v fuel todo') -> In v (aa_V s)) by (intros v I; apply VT, (Permutation_in _ PO), I).
      destruct (nlaggregates_ok sym pv pe (fun _ => 0) g s (ord_v fuel todo') R NO VO) as (ag & EA' & K1 & _ & K3). rewrite EA' in E.
      destruct (nvgroups_spec ord s ag OV (fun v => v) s g tr R (nlq_id g s R)) as (phi & g1 & s1 & blk & EF & R1 & Q1 & T1).
      + apply (Permutation_NoDup (Permutation_sym K3)). apply (Permutation_NoDup (Permutation_rev _)), NO.
      + intros x I. apply VT. apply (Permutation_in _ PO). apply in_rev. apply (Permutation_in _ K3), I.
      + intros k G x y I Ix Iy. assert (IN : forall z, In z G -> In z (aa_V s)) by (intros z J; apply VO, in_rev, (Permutation_in _ K3), in_concat; exists G; split; [apply in_map_iff; exists (k, G); auto|exact J]).
        assert (SG : lsigeq (Some lab) s x y) by (apply (nlsig_eqb_sound sym pv pe g s x y R (IN x Ix) (IN y Iy)); eapply nlsig_eqb_trans; [apply (K1 k G I x Ix)|]; apply nlsig_eqb_sym, (K1 k G I y Iy)).
        destruct SG as [S1 S2]. unfold state_label in S1. injection S1 as S1. split; [exact S1|]. split; [apply RF; auto|exact S2].
      + rewrite EF in E. cbn [fst] in E. apply (IH _ _ g1 s1) in E; [|intros x y Vx Vy; apply RF; apply Q1; assumption|exact R1|apply NoDup_sof|].
        * destruct E as (g' & s' & tr' & k & -> & R' & F' & T'). exists g', s', (blk ++ tr'), k. rewrite app_assoc. split; [reflexivity|]. split; [exact R'|]. assert (FE : aa_final s1 = aa_final s) by apply Q1. split; [congruence|].
          eapply ntold_app; [exact T1|]. rewrite <- FE. exact T'.
        * intros x I. rewrite In_sof in I. apply filter_In in I. destruct I as [I _]. apply in_flat_map in I. destruct I as (v & _ & I). apply in_map_iff in I. destruct I as ([p r a] & <- & I). apply (In_obs_nin sym g1 s1 v _ R1) in I. apply (narep_closed sym g1 s1 R1 _ _ _ (proj2 I)).
  Qed.
End Told.

(** ** What the calls imply *)
Section Words.
  Context {A L : Type} {EA : EqDec A}.
  Variables (sym : nat -> option A) (lab : nat -> L).
  Notation nshows := (nshows sym).
  Notation nmoved := (nmoved sym).
  Notation ntold := (ntold sym lab).
  Lemma nmoved_image V q1 q2 (E : list (edge (option A))) tr E' : nmoved V q1 q2 E tr E' -> forall p r a,
    (exists r0, In (Edge p r0 a) E /\ redirect q1 q2 r0 = r) <-> (exists r0, In (Edge p r0 a) E' /\ redirect q1 q2 r0 = r).
  Proof.
    intros M. induction M as [E|E p0 a0 E1 g tr E2 I EI S M IH]; intros p r a; [tauto|]. rewrite <- IH. split.
    - intros (r0 & J & <-). destruct (eqb_spec (Edge p r0 a) (Edge p0 q2 a0)) as [K|K].
      + injection K as -> -> ->. exists q1. split; [apply EI; right; reflexivity|]. rewrite redirect_q1, redirect_q2. reflexivity.
      + exists r0. split; [apply EI; left; auto|reflexivity].
    - intros (r0 & J & <-). apply EI in J. destruct J as [[J _]|[= -> -> ->]]; [eauto|]. exists q2. split; [exact I|]. rewrite redirect_q1, redirect_q2. reflexivity.
  Qed.
  Lemma nmoved_edges V q1 q2 (E : list (edge (option A))) tr E' : q1 <> q2 -> nmoved V q1 q2 E tr E' -> (forall e, In e E' -> target e <> q2) ->
    forall p r a, In (Edge p r a) E' <-> exists r0, In (Edge p r0 a) E /\ redirect q1 q2 r0 = r.
  Proof.
    intros N M NT p r a. rewrite (nmoved_image V q1 q2 E tr E' M p r a). split.
    - intros I. exists r. split; [exact I|]. apply redirect_other. apply (NT _ I).
    - intros (r0 & I & <-). rewrite redirect_other; [exact I|]. apply (NT _ I).
  Qed.
  Lemma nremoved_app (t1 t2 : nrtrace A) : nremoved (t1 ++ t2) = nremoved t1 ++ nremoved t2.
  Proof. induction t1 as [|[[] g] t1 IH]; cbn [app nremoved]; rewrite ?IH; reflexivity. Qed.
  Lemma nremoved_moved V q1 q2 (E : list (edge (option A))) tr E' : nmoved V q1 q2 E tr E' -> nremoved tr = [] /\ forall q1' q2' g, ~ In (MergingStates q1' q2', g) tr.
  Proof. induction 1 as [E|E p a E1 g tr E2 I EI S M [IH1 IH2]]; [split; [reflexivity|intros ? ? ? []]|]. split; [exact IH1|]. intros q1' q2' g' [K|K]; [discriminate|apply (IH2 _ _ _ K)]. Qed.
  Lemma ntold_words final V (E : list (edge (option A))) tr V' E' : ntold final V E tr V' E' ->
    (forall q w, In q V' -> (right E' final q w <-> right E final q w) /\ (readable E' q w <-> readable E q w)) /\
    (forall q1 q2 g, In (MergingStates q1 q2, g) tr -> q1 < q2 /\ In q1 V /\ In q2 V /\ (sym q1 = sym q2 /\ lab q1 = lab q2) /\ forall w, (right E final q1 w <-> right E final q2 w) /\ (readable E q1 w <-> readable E q2 w)) /\
    (forall q, In q V' <-> In q V /\ ~ In q (nremoved tr)) /\ NoDup (nremoved tr) /\ (forall q, In q (nremoved tr) -> In q V /\ exists q1 g, In (MergingStates q1 q, g) tr).
  Proof.
    induction 1 as [V E|V E q1 q2 g0 moves E1 g1 V2 E2 g2 tr V' E' L12 V1 V2' F0 S S0 M T1 S1 EV EE S2 T (IH1 & IH2 & IH3 & IH4 & IH5)].
    - split; [intros; tauto|]. split; [intros ? ? ? []|]. cbn. split; [tauto|]. split; [constructor|]. intros ? [].
    - assert (N : q1 <> q2) by lia. destruct F0 as (FS & FL & F).
      assert (HE : forall p r a, In (Edge p r a) E2 <-> p <> q2 /\ exists r0, In (Edge p r0 a) E /\ redirect q1 q2 r0 = r).
      { intros p r a. rewrite EE, (nmoved_edges V q1 q2 E moves E1 N M T1). cbn [source]. tauto. }
      pose proof (block_right E E2 q1 q2 final N F S HE) as BR. pose proof (block_read E E2 q1 q2 N S HE) as BD.
      destruct (nremoved_moved _ _ _ _ _ _ M) as [RM NM].
      assert (ER : nremoved ((MergingStates q1 q2, g0) :: moves ++ (RemoveVertex q2, g1) :: (StatesMerged q1 q2, g2) :: tr) = q2 :: nremoved tr) by (cbn [nremoved]; rewrite nremoved_app, RM; reflexivity).
      rewrite ER. split; [|split; [|split; [|split]]].
      + intros q w Vq. destruct (IH1 q w Vq) as [K1 K2]. apply IH3 in Vq. destruct Vq as [Vq _]. apply EV in Vq. destruct Vq as [_ Nq]. specialize (BR q w). specialize (BD q w). rewrite redirect_other in BR, BD by exact Nq. tauto.
      + intros p1 p2 g I. assert (K : (p1 = q1 /\ p2 = q2) \/ In (MergingStates p1 p2, g) tr).
        { destruct I as [I|I]; [left; split; congruence|]. apply in_app_or in I. destruct I as [I|[I|[I|I]]]; [destruct (NM _ _ _ I)|discriminate|discriminate|right; exact I]. }
        destruct K as [[-> ->]|K].
        * split; [exact L12|]. split; [exact V1|]. split; [exact V2'|]. split; [auto|]. intros w. rewrite (BR q1 w), (BR q2 w), (BD q1 w), (BD q2 w), redirect_q1, redirect_q2. tauto.
        * destruct (IH2 _ _ _ K) as (L' & I1 & I2 & SL & W). apply EV in I1, I2. destruct I1 as [I1 N1], I2 as [I2 N2]. split; [exact L'|]. split; [exact I1|]. split; [exact I2|]. split; [exact SL|]. intros w. rewrite (BR p1 w), (BR p2 w), (BD p1 w), (BD p2 w), !redirect_other by assumption. apply W.
      + intros q. rewrite IH3, EV. cbn [In]. split; [intros [[I K] J]; split; [exact I|]; intros [->|K']; auto|intros [I J]; split; [split; [exact I|]|]; [intros ->|intros K]; auto].
      + constructor; [|exact IH4]. intros I. destruct (IH5 _ I) as [I' _]. apply EV in I'. tauto.
      + intros q [<-|I].
        * split; [exact V2'|]. exists q1, g0. left. reflexivity.
        * destruct (IH5 q I) as (I' & p1 & g & J). apply EV in I'. split; [apply I'|]. exists p1, g. right. apply in_or_app. right. right. right. exact J.
  Qed.

  Lemma nshows_ext (g : naut A) V E F : (forall e, In e F <-> In e E) -> nshows g V E -> nshows g V F.
  Proof. intros X (S1 & S3 & S2). split; [exact S1|]. split; [exact S3|]. intros e. rewrite X. apply S2. Qed.
  Lemma nmoved_ext V q1 q2 (E : list (edge (option A))) tr E1 F : (forall e, In e F <-> In e E) -> nmoved V q1 q2 E tr E1 -> exists F1, nmoved V q1 q2 F tr F1 /\ forall e, In e F1 <-> In e E1.
  Proof.
    intros X M0. revert X. destruct M0 as [E0|E0 p a E1' g tr' E2 I EI S M]; intros X; [exists F; split; [constructor|exact X]|]. exists E2. split; [|tauto]. econstructor; [apply X, I| |exact S|exact M]. intros e. rewrite EI, X. tauto.
  Qed.
  Lemma ntold_ext f V (E : list (edge (option A))) tr V' E' F : (forall e, In e F <-> In e E) -> ntold f V E tr V' E' -> exists F', ntold f V F tr V' F' /\ forall e, In e F' <-> In e E'.
  Proof.
    intros X T0. revert X. destruct T0 as [V0 E0|V0 E0 q1 q2 g0 moves E1 g1 V2 E2 g2 tr' V3 E3 L12 V1 V2' FF S S0 M T1 S1 EV EE S2 T]; intros X; [exists F; split; [constructor|exact X]|].
    destruct (nmoved_ext _ _ _ _ _ _ F X M) as (F1 & M' & X1). exists E3. split; [|tauto]. eapply ntold_merge with (E1 := F1) (V2 := V2) (E2 := E2); [exact L12|exact V1|exact V2'|exact FF| | |exact M'| | |exact EV| |exact S2|exact T].
    - intros a r. rewrite !X. apply S.
    - apply (nshows_ext g0 V0 E0 F X S0).
    - intros e I. apply T1, X1, I.
    - apply (nshows_ext g1 V0 E1 F1 X1 S1).
    - intros e. rewrite X1. apply EE.
  Qed.
End Words.

(** ** With other functions that have the same values *)
Section Ext.
  Context {A L : Type} {EA : EqDec A}.
  Variables (sym sym' : nat -> option A) (lab lab' : nat -> L).
  Hypothesis HS : forall q, sym' q = sym q.
  Lemma nshows_sym (g : naut A) V E : nshows sym g V E -> nshows sym' g V E.
  Proof. intros (S1 & S3 & S2). split; [exact S1|]. split; [|exact S2]. intros q I. rewrite HS. apply S3, I. Qed.
  Lemma nmoved_sym V q1 q2 (E : list (edge (option A))) tr E1 : nmoved sym V q1 q2 E tr E1 -> nmoved sym' V q1 q2 E tr E1.
  Proof. induction 1 as [E|E p a E1 g tr E2 I EI S M IH]; [constructor|]. econstructor; [exact I|exact EI|apply nshows_sym, S|exact IH]. Qed.
  Lemma ntold_ext_all f f' V (E : list (edge (option A))) tr V' E' : (forall q, lab' q = lab q) -> (forall q, f' q = f q) -> ntold sym lab f V E tr V' E' -> ntold sym' lab' f' V E tr V' E'.
  Proof.
    intros HL X. induction 1 as [V E|V E q1 q2 g0 moves E1 g1 V2 E2 g2 tr V' E' L12 V1 V2' F0 S S0 M T1 S1 EV EE S2 T IH]; [constructor|].
    eapply ntold_merge with (E1 := E1) (V2 := V2) (E2 := E2); eauto using nshows_sym, nmoved_sym. rewrite !HS, !HL, !X. exact F0.
  Qed.
End Ext.

(** ** The initial state and the final flags are not changed *)
Section Q0.
  Context {A B C : Type} {EA : EqDec A} {EB : EqDec B} {EC : EqDec C}.
  Variables (pv : option (nat -> B)) (pe : option (edge (option A) -> C)).
  Lemma foreach_keeps {S E X} (k : S -> X) (f : S -> E -> S * res unit) l : (forall g e, k (fst (f g e)) = k g) -> forall g, k (fst (foreach f g l)) = k g.
  Proof. intros H. induction l as [|e l IH]; intros g; cbn [foreach]; [reflexivity|]. specialize (H g e). destruct (f g e) as [g' [[]|x]]; cbn [fst] in H; [rewrite IH; exact H|exact H]. Qed.
  Lemma nmove_q0 q1 (g : naut A) e : na_q0 (fst (nmove_edge q1 g e)) = na_q0 g.
  Proof.
    unfold nmove_edge. destruct (INA_q0 g (NRemoveEdge e)) as [K1 _]. cbn [INA_call] in K1. destruct (INA_remove_edge g e) as [g1 [[]|x]]; cbn [fst] in K1; [|exact K1].
    destruct (INA_q0 g1 (NAddEdge (source e) q1)) as [K2 _]. cbn [INA_call] in K2. destruct (INA_add_edge g1 (source e) q1) as [g2 [y|x]]; cbn [fst] in *; congruence.
  Qed.
  Lemma nmerge_q0 ord q1 (g : naut A) q2 : na_q0 (fst (nmerge ord q1 g q2)) = na_q0 g.
  Proof.
    unfold nmerge. pose proof (foreach_keeps na_q0 (nmove_edge q1) (ord q2 (sof (INA_in_edges g q2))) (nmove_q0 q1) g) as K. destruct (foreach (nmove_edge q1) g (ord q2 (sof (INA_in_edges g q2)))) as [g1 [[]|x]]; cbn [fst] in *; [|exact K].
    destruct (INA_q0 g1 (NRemoveVertex q2)) as [K2 _]. cbn [INA_call] in K2. destruct (INA_remove_vertex g1 q2) as [g2 [[]|x]]; cbn [fst] in *; congruence.
  Qed.
  Lemma nlgroup_q0 ord (g : naut A) (G : @nlsignature A B C * list nat) : na_q0 (fst (nlmerge_group ord g G)) = na_q0 g.
  Proof. unfold nlmerge_group. destruct (length (snd G) <? 2); [reflexivity|]. destruct (py_sorted Nat.ltb (snd G)) as [|q1 rest]; [reflexivity|]. apply (foreach_keeps na_q0), nmerge_q0. Qed.
  Lemma nlloop_q0 ord ord_v m fuel : forall h todo (g : naut A) g' r, nlminimize_loop pv pe fuel ord ord_v m h todo g = Some (g', r) -> na_q0 g' = na_q0 g.
  Proof.
    induction fuel as [|fuel IH]; intros h todo g g' r E; destruct todo as [|q todo]; cbn [nlminimize_loop] in E; try discriminate; [congruence|congruence|].
    destruct (nlaggregates pv pe g (ord_v fuel (q :: todo))) as [ag [[]|x]]; [|congruence]. pose proof (foreach_keeps na_q0 (nlmerge_group ord) ag (nlgroup_q0 ord) g) as K. destruct (foreach (nlmerge_group ord) g ag) as [g1 [[]|x]]; cbn [fst] in K; [|congruence].
    rewrite (IH _ _ _ _ _ E). exact K.
  Qed.
  Lemma nlrevuz_q0 fuel ord ord_v leaves (g g' : naut A) r : nlrevuz_minimize pv pe fuel ord ord_v leaves g = Some (g', r) -> na_q0 g' = na_q0 g.
  Proof. unfold nlrevuz_minimize. destruct (revuz_height (NA_vertices g) (NA_out_degree g) (INA_in_edges g) fuel ord_v [] []) as [[r0 m]|]; [|discriminate]. apply nlloop_q0. Qed.
End Q0.
