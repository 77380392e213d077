(** Lemmas on the visitor of revuz_minimize. *)
From Coq Require Import ZArith.
From Verif Require Import Graph GraphProofs Automaton AutomatonSpec AutomatonProofs AutomatonProofs2 Heap Revuz RevuzSpec RevuzProofs RevuzProofs2 RevuzProofs3 MinSpec MinProofs RevuzVis RevuzVisSpec TRevuz Base BaseProofs.

(** ** The visitor changes nothing *)
Section Erase.
  Context {A : Type} {EA : EqDec A}.
  Definition erase {X} (p : (iaut A * rtrace A) * res X) : iaut A * res X := (fst (fst p), snd p).
  Lemma erase_foreach {E} (f : iaut A * rtrace A -> E -> (iaut A * rtrace A) * res unit) (f0 : iaut A -> E -> iaut A * res unit) l :
    (forall st e, erase (f st e) = f0 (fst st) e) -> forall st, erase (foreach f st l) = foreach f0 (fst st) l.
  Proof.
    intros H. induction l as [|e l IH]; intros st; cbn [foreach]; [reflexivity|]. rewrite <- (H st e). destruct (f st e) as [st' [[]|x]]; unfold erase at 2; cbn [fst snd]; [apply IH|reflexivity].
  Qed.
  Lemma erase_move q1 st e : erase (vmove_edge q1 st e) = move_edge q1 (fst st) e.
  Proof.
    destruct st as [g tr]. unfold vmove_edge, move_edge. cbn [fst]. destruct (IA_remove_edge g e) as [g1 [[]|x]]; [|reflexivity].
    destruct (IA_add_edge g1 (source e) q1 (distinguisher e)) as [g2 [[y b]|x]]; reflexivity.
  Qed.
  Lemma erase_merge ord q1 st q2 : erase (vmerge ord q1 st q2) = merge ord q1 (fst st) q2.
  Proof.
    destruct st as [g tr]. unfold vmerge, merge. cbn [fst]. pose proof (erase_foreach (vmove_edge q1) (move_edge q1) (ord q2 (sof (IA_in_edges g q2))) (erase_move q1) (g, tr ++ [(MergingStates q1 q2, g)])) as K. cbn [fst] in K.
    rewrite <- K. destruct (foreach (vmove_edge q1) (g, tr ++ [(MergingStates q1 q2, g)]) (ord q2 (sof (IA_in_edges g q2)))) as [[g1 tr1] [[]|x]]; unfold erase at 2; cbn [fst snd]; [|reflexivity].
    destruct (IA_remove_vertex g1 q2) as [g2 [[]|x]]; reflexivity.
  Qed.
  Lemma erase_group ord st G : erase (vmerge_group ord st G) = merge_group ord (fst st) G.
  Proof.
    unfold vmerge_group, merge_group. destruct (length (snd G) <? 2); [reflexivity|]. destruct (py_sorted Nat.ltb (snd G)) as [|q1 rest]; [reflexivity|]. apply erase_foreach, erase_merge.
  Qed.
  Lemma erase_loop ord ord_v m fuel : forall h todo st, option_map erase (vminimize_loop fuel ord ord_v m h todo st) = minimize_loop fuel ord ord_v m h todo (fst st).
  Proof.
    induction fuel as [|fuel IH]; intros h todo st; destruct todo as [|q todo]; try reflexivity. cbn [vminimize_loop minimize_loop]. set (todo' := q :: todo).
    rewrite <- (erase_foreach (vmerge_group ord) (merge_group ord) (aggregates (fst st) (ord_v fuel todo')) (erase_group ord) st).
    destruct (foreach (vmerge_group ord) st (aggregates (fst st) (ord_v fuel todo'))) as [st' [[]|x]]; unfold erase at 2; cbn [fst snd]; [apply IH|reflexivity].
  Qed.
  Lemma erase_minimize fuel ord ord_v leaves g : option_map erase (vrevuz_minimize fuel ord ord_v leaves g) = revuz_minimize fuel ord ord_v leaves g.
  Proof.
    unfold vrevuz_minimize, revuz_minimize. destruct (revuz_height (IA_vertices g) (fun q => length (IA_out_edges g q)) (IA_in_edges g) fuel ord_v [] []) as [[r m]|]; [|reflexivity]. apply erase_loop.
  Qed.
End Erase.

Section Told.
  Context {A : Type} {EA : EqDec A}.
  Lemma shows_rep (g : iaut A) s : iarep g s -> shows g (aa_V s) (aa_T s).
  Proof. intros R. assert (EV : IA_vertices g = aa_V s) by apply (obs_vertices _ _ (proj1 R)). split; [intros q; rewrite EV; tauto|]. intros e. apply (edges_iff g s R). Qed.

  Lemma vmove_spec q1 tr (g : iaut A) s e : iarep g s -> In e (aa_T s) -> In q1 (aa_V s) ->
    exists g' s', vmove_edge q1 (g, tr) e = ((g', tr ++ [(MoveTransition e (Some (Edge (source e) q1 (distinguisher e))), g')]), Ok tt) /\ iarep g' s' /\ aa_V s' = aa_V s /\ aa_q0 s' = aa_q0 s /\ aa_final s' = aa_final s /\
      forall x, In x (aa_T s') <-> (In x (aa_T s) /\ x <> e) \/ x = Edge (source e) q1 (distinguisher e).
  Proof.
    intros R I V1. unfold vmove_edge. destruct (IA_step g s (ARemoveEdge e) R (or_introl I)) as [R1 O1].
    pose proof (iarep_closed _ _ R (source e) (target e) (distinguisher e)) as CL. assert (CE : In (Edge (source e) (target e) (distinguisher e)) (aa_T s)) by (destruct e; exact I). specialize (CL CE).
    assert (KEY : forall x, In x (aa_T s) -> source x = source e -> distinguisher x = distinguisher e -> x = e) by (intros x J; apply (keys_same_key _ _ (proj1 (proj2 (proj2 (proj2 (proj1 R))))) _ _ J I)).
    destruct s as [k V T q0 f]. cbn [IA_call ia_step aa_T aa_V aa_q0 aa_final] in *.
    assert (EX : existsb (fun x => (source x =? source e) && (target x =? target e)) T = true) by (apply existsb_exists; exists e; rewrite !Nat.eqb_refl; auto). rewrite EX in R1, O1. cbn [aa_step fst snd] in R1, O1.
    destruct (IA_remove_edge g e) as [g1 [[]|x]]; [|discriminate O1]. cbn [fst snd] in R1.
    assert (NL : lookup (drop_key (source e) (distinguisher e) T) (source e) (distinguisher e) = None).
    { unfold lookup. destruct (find (same_key (source e) (distinguisher e)) (drop_key (source e) (distinguisher e) T)) as [y|] eqn:F; [|reflexivity]. apply find_some in F. destruct F as [F1 F2]. apply In_drop_key in F1. destruct (same_key_spec (source e) (distinguisher e) y); [tauto|discriminate]. }
    destruct (IA_step g1 _ (AAddEdge (source e) q1 (distinguisher e)) R1) as [R2 O2].
    { cbn. rewrite NL. split; [apply CL|split; [exact V1|discriminate]]. }
    cbn [IA_call ia_step aa_step] in R2, O2. rewrite NL in R2, O2. rewrite (proj2 (mem_spec _ _) (proj1 CL)) in R2, O2. cbn [fst snd] in R2, O2.
    destruct (IA_add_edge g1 (source e) q1 (distinguisher e)) as [g2 [[y b]|x]]; [|discriminate O2]. cbn [fst snd] in R2.
    cbn [aout_edge] in O2. injection O2 as Ey Eb. eexists. eexists. split; [rewrite Ey; reflexivity|]. split; [exact R2|]. cbn [aa_T aa_V aa_q0 aa_final]. split; [reflexivity|]. split; [reflexivity|]. split; [reflexivity|].
    intros x. rewrite in_app_iff, In_drop_key. rewrite In_drop_key. cbn [In]. split.
    - intros [[[J N] _]|[<-|[]]]; [left|right; reflexivity]. split; [exact J|]. intros ->. apply N. auto.
    - intros [[J N]| ->]; [left|right; left; reflexivity]. assert (NN : ~ (source x = source e /\ distinguisher x = distinguisher e)) by (intros [E1 E2]; apply N, KEY; assumption). tauto.
  Qed.


  Lemma vmoves_spec q1 q2 L : q1 <> q2 -> forall (g : iaut A) s tr, iarep g s -> NoDup L -> (forall e, In e L -> In e (aa_T s) /\ target e = q2) -> In q1 (aa_V s) ->
    exists g' s' mv, foreach (vmove_edge q1) (g, tr) L = ((g', tr ++ mv), Ok tt) /\ iarep g' s' /\ aa_V s' = aa_V s /\ aa_q0 s' = aa_q0 s /\ aa_final s' = aa_final s /\ moved (aa_V s) q1 q2 (aa_T s) mv (aa_T s') /\
      forall x, In x (aa_T s') -> In x (aa_T s) /\ ~ In x L \/ target x = q1.
  Proof.
    intros N12. induction L as [|e L IH]; intros g s tr R N H V1; cbn [foreach].
    - exists g, s, []. rewrite app_nil_r. split; [reflexivity|]. split; [exact R|]. split; [reflexivity|]. split; [reflexivity|]. split; [reflexivity|]. split; [constructor|]. intros x I. left. split; [exact I|intros []].
    - inversion N as [|? ? N1 N2]; subst. destruct (H e (or_introl eq_refl)) as [I T2].
      destruct (vmove_spec q1 tr g s e R I V1) as (g1 & s1 & -> & R1 & EV1 & EQ1 & EF1 & ET1). cbn iota beta.
      destruct (IH g1 s1 (tr ++ [(MoveTransition e (Some (Edge (source e) q1 (distinguisher e))), g1)]) R1 N2) as (g2 & s2 & mv & EQF & R2 & EV2 & EQ2 & EF2 & MV & ET2).
      + intros x J. destruct (H x (or_intror J)) as [J1 J2]. split; [|exact J2]. apply ET1. left. split; [exact J1|]. intros ->. contradiction.
      + rewrite EV1. exact V1.
      + exists g2, s2, ((MoveTransition e (Some (Edge (source e) q1 (distinguisher e))), g1) :: mv). split; [etransitivity; [exact EQF|]; rewrite <- app_assoc; reflexivity|]. split; [exact R2|]. split; [congruence|]. split; [congruence|]. split; [congruence|]. split.
        * destruct e as [p r a]. cbn [source target distinguisher] in *. subst r. apply moved_cons with (E1 := aa_T s1); [exact I|exact ET1|rewrite <- EV1; apply shows_rep, R1|rewrite <- EV1; exact MV].
        * intros x J. apply ET2 in J. destruct J as [[J K]|J]; [|right; exact J]. apply ET1 in J. destruct J as [[J J']| ->]; [left; split; [exact J|]; intros [<-|J2]; auto|right; reflexivity].
  Qed.
  Lemma told_app final V E t1 V1 (E1 : list (edge A)) : told final V E t1 V1 E1 -> forall t2 V2 E2, told final V1 E1 t2 V2 E2 -> told final V E (t1 ++ t2) V2 E2.
  Proof.
    induction 1 as [V E|V E q1 q2 g0 moves E1 g1 V2 E2 g2 tr V' E' L V1' V2' F S S0 M T1 S1 EV EE S2 T IH]; intros t2 V3 E3 T3; [exact T3|].
    cbn [app]. rewrite <- app_assoc. cbn [app]. eapply told_merge; eauto.
  Qed.
  Lemma vmerge_spec ord q1 q2 (g : iaut A) s tr : valid_order ord -> iarep g s -> q1 < q2 -> In q1 (aa_V s) -> In q2 (aa_V s) -> sigeq s q1 q2 ->
    exists g' s' blk, vmerge ord q1 (g, tr) q2 = ((g', tr ++ blk), Ok tt) /\ iarep g' s' /\ (forall x, In x (aa_V s') <-> In x (aa_V s) /\ x <> q2) /\ aa_final s' = aa_final s /\
      told (aa_final s) (aa_V s) (aa_T s) blk (aa_V s') (aa_T s') /\
      forall p r a, In (Edge p r a) (aa_T s') <-> p <> q2 /\ exists r0, In (Edge p r0 a) (aa_T s) /\ redirect q1 q2 r0 = r.
  Proof.
    intros OV R L12 V1 V2 [SF SE]. assert (N : q1 <> q2) by lia. destruct (merge_spec ord q1 q2 g s OV R N V1) as (g3 & s3 & EM & R3 & _ & _ & _ & ET3).
    pose proof (erase_merge ord q1 (g, tr) q2) as EM'. cbn [fst] in EM'. rewrite EM in EM'. unfold vmerge in *.
    assert (HL : forall e, In e (ord q2 (sof (IA_in_edges g q2))) <-> target e = q2 /\ In e (aa_T s)).
    { intros e. rewrite <- (In_obs_in g s q2 e R), <- (In_sof e (IA_in_edges g q2)). split; apply Permutation_in; [|symmetry]; apply OV. }
    destruct (vmoves_spec q1 q2 (ord q2 (sof (IA_in_edges g q2))) N g s (tr ++ [(MergingStates q1 q2, g)]) R) as (g1 & s1 & mv & EF & R1 & EV & EQ & EFI & MV & ET).
    - apply (Permutation_NoDup (Permutation_sym (OV _ _))), NoDup_sof.
    - intros e I. apply HL in I. tauto.
    - exact V1.
    - rewrite EF in EM' |- *. destruct (IA_remove_vertex_spec g1 s1 q2 R1) as (g2 & E2 & R2). rewrite E2 in EM' |- *. unfold erase in EM'. cbn [fst snd] in EM'. injection EM' as ->.
      exists g3. eexists. exists ((MergingStates q1 q2, g) :: mv ++ (RemoveVertex q2, g1) :: [(StatesMerged q1 q2, g3)]). rewrite <- !app_assoc. split; [reflexivity|]. split; [exact R2|]. cbn [aa_V aa_final aa_T].
      assert (EV' : forall x, In x (filter (fun v => negb (v =? q2)) (aa_V s1)) <-> In x (aa_V s) /\ x <> q2).
      { intros x. rewrite filter_In, EV, negb_true_iff, Nat.eqb_neq. tauto. }
      assert (NT : forall e, In e (aa_T s1) -> target e <> q2).
      { intros e I. apply ET in I. destruct I as [[I K]|K]; [|congruence]. intros K'. apply K, HL. auto. }
      split; [exact EV'|]. split; [exact EFI|]. pose proof (shows_rep _ _ R2) as S2. cbn [aa_V aa_T] in S2. split.
      + eapply told_merge with (E1 := aa_T s1) (V2 := filter (fun v => negb (v =? q2)) (aa_V s1)); [exact L12|exact V1|exact V2|exact SF|exact SE|apply shows_rep, R|exact MV|exact NT|rewrite <- EV; apply shows_rep, R1|exact EV'| |exact S2|constructor].
        intros e. unfold drop_incident. rewrite filter_In. rewrite negb_true_iff, orb_false_iff, !Nat.eqb_neq. specialize (NT e). tauto.
      + intros p r a. rewrite <- ET3. rewrite <- (edges_iff g3 s3 R3). apply iff_sym. apply (edges_iff g3 _ R2).
  Qed.

  (** ** The quotient at one level *)
  Definition lq (phi : nat -> nat) (s s' : aaut A) : Prop :=
    (forall x, In x (aa_V s') -> In x (aa_V s)) /\ aa_final s' = aa_final s /\
    forall p x a, In (Edge p x a) (aa_T s') <-> In p (aa_V s') /\ exists r, In (Edge p r a) (aa_T s) /\ phi r = x.
  Lemma lq_id (g : iaut A) s : iarep g s -> lq (fun v => v) s s.
  Proof.
    intros R. split; [auto|]. split; [reflexivity|]. intros p x a. split; [intros I; split; [apply (iarep_closed g s R _ _ _ I)|eauto]|intros (_ & r & I & ->); exact I].
  Qed.
  Lemma lq_sig phi s s' x y : lq phi s s' -> In x (aa_V s') -> In y (aa_V s') -> sigeq s x y -> sigeq s' x y.
  Proof.
    intros (_ & F & E) Vx Vy [SF SE]. split; [rewrite F; exact SF|]. intros a r. rewrite !E. split; intros (_ & r0 & I & P); (split; [assumption|]); exists r0; (split; [apply SE, I|exact P]).
  Qed.
  Lemma vmerges_spec ord s q1 rest : valid_order ord -> forall phi s' (g : iaut A) tr, iarep g s' -> lq phi s s' -> NoDup rest -> In q1 (aa_V s') ->
    (forall x, In x rest -> In x (aa_V s') /\ q1 < x /\ sigeq s q1 x) ->
    exists phi' g' s2 blk, foreach (vmerge ord q1) (g, tr) rest = ((g', tr ++ blk), Ok tt) /\ iarep g' s2 /\ lq phi' s s2 /\ told (aa_final s) (aa_V s') (aa_T s') blk (aa_V s2) (aa_T s2) /\
      forall x, In x (aa_V s2) <-> In x (aa_V s') /\ ~ In x rest.
  Proof.
    intros OV. induction rest as [|q2 rest IH]; intros phi s' g tr R Q N V1 H; cbn [foreach].
    - exists phi, g, s', []. rewrite app_nil_r. split; [reflexivity|]. split; [exact R|]. split; [exact Q|]. split; [constructor|]. cbn. tauto.
    - inversion N as [|? ? N1 N2]; subst. destruct (H q2 (or_introl eq_refl)) as (V2 & L12 & SG).
      destruct (vmerge_spec ord q1 q2 g s' tr OV R L12 V1 V2 (lq_sig _ _ _ _ _ Q V1 V2 SG)) as (g1 & s1 & blk & -> & R1 & EV & EF & T1 & ET).
      assert (Q1 : lq (fun r => redirect q1 q2 (phi r)) s s1).
      { destruct Q as (QV & QF & QE). split; [intros x I; apply QV, EV, I|]. split; [congruence|]. intros p x a. rewrite ET, EV. split.
        - intros (Np & r0 & I & <-). apply QE in I. destruct I as (Vp & r & I & <-). split; [auto|]. exists r. auto.
        - intros ((Vp & Np) & r & I & <-). split; [exact Np|]. exists (phi r). split; [|reflexivity]. apply QE. split; [exact Vp|]. exists r. auto. }
      destruct (IH _ s1 g1 (tr ++ blk) R1 Q1 N2) as (phi' & g2 & s2 & blk2 & EQF & R2 & Q2 & T2 & EV2).
      + apply EV. split; [exact V1|lia].
      + intros x I. destruct (H x (or_intror I)) as (Vx & Lx & SX). split; [|auto]. apply EV. split; [exact Vx|]. intros ->. contradiction.
      + exists phi', g2, s2, (blk ++ blk2). split; [etransitivity; [exact EQF|]; rewrite app_assoc; reflexivity|]. split; [exact R2|]. split; [exact Q2|]. split.
        * eapply told_app; [|exact T2]. replace (aa_final s) with (aa_final s') by apply Q. exact T1.
        * intros x. rewrite EV2, EV. cbn [In]. split; [intros ((Vx & Nx) & Nr); split; [exact Vx|]; intros [->|I]; auto|intros (Vx & Nr); split; [split; [exact Vx|]|]; [intros ->|intros I]; auto].
  Qed.
  Lemma vgroup_spec ord s sg G : valid_order ord -> forall phi s' (g : iaut A) tr, iarep g s' -> lq phi s s' -> NoDup G -> (forall x, In x G -> In x (aa_V s')) ->
    (forall x y, In x G -> In y G -> sigeq s x y) ->
    exists phi' g' s2 blk, vmerge_group ord (g, tr) (sg, G) = ((g', tr ++ blk), Ok tt) /\ iarep g' s2 /\ lq phi' s s2 /\ told (aa_final s) (aa_V s') (aa_T s') blk (aa_V s2) (aa_T s2) /\
      forall x, In x (aa_V s') -> ~ In x G -> In x (aa_V s2).
  Proof.
    intros OV phi s' g tr R Q N VG SG. assert (DONE : exists phi' g' s2 blk, ((g, tr), @Ok unit tt) = ((g', tr ++ blk), Ok tt) /\ iarep g' s2 /\ lq phi' s s2 /\ told (aa_final s) (aa_V s') (aa_T s') blk (aa_V s2) (aa_T s2) /\
      forall x, In x (aa_V s') -> ~ In x G -> In x (aa_V s2)).
    { exists phi, g, s', []. rewrite app_nil_r. split; [reflexivity|]. split; [exact R|]. split; [exact Q|]. split; [constructor|]. auto. }
    unfold vmerge_group. cbn [snd]. destruct (length G <? 2); [exact DONE|]. pose proof (sorted_perm G) as P. destruct (py_sorted Nat.ltb G) as [|q1 rest] eqn:E; [exact DONE|].
    assert (N' : NoDup (q1 :: rest)) by (apply (Permutation_NoDup (Permutation_sym P)), N). inversion N' as [|? ? N1 N2]; subst.
    assert (IG : forall x, In x (q1 :: rest) -> In x G) by (intros x; apply Permutation_in, P).
    destruct (vmerges_spec ord s q1 rest OV phi s' g tr R Q N2) as (phi' & g2 & s2 & blk & EQF & R2 & Q2 & T2 & EV2).
    - apply VG, IG. now left.
    - intros x I. split; [apply VG, IG; now right|]. split; [|apply SG; apply IG; [now left|now right]]. pose proof (sorted_head G q1 rest E x I). assert (q1 <> x) by (intros ->; contradiction). lia.
    - exists phi', g2, s2, blk. split; [exact EQF|]. split; [exact R2|]. split; [exact Q2|]. split; [exact T2|]. intros x Vx NG. apply EV2. split; [exact Vx|]. intros I. apply NG, IG. now right.
  Qed.
  Lemma vgroups_spec ord s m : valid_order ord -> forall phi s' (g : iaut A) tr, iarep g s' -> lq phi s s' -> NoDup (concat (map snd m)) -> (forall x, In x (concat (map snd m)) -> In x (aa_V s')) ->
    (forall k G x y, In (k, G) m -> In x G -> In y G -> sigeq s x y) ->
    exists phi' g' s2 blk, foreach (vmerge_group ord) (g, tr) m = ((g', tr ++ blk), Ok tt) /\ iarep g' s2 /\ lq phi' s s2 /\ told (aa_final s) (aa_V s') (aa_T s') blk (aa_V s2) (aa_T s2).
  Proof.
    intros OV. induction m as [|[k G] m IH]; intros phi s' g tr R Q N VG SG; cbn [foreach].
    - exists phi, g, s', []. rewrite app_nil_r. split; [reflexivity|]. split; [exact R|]. split; [exact Q|]. constructor.
    - cbn [map snd concat] in N, VG. apply NoDup_app_inv in N. destruct N as (N1 & N2 & N3).
      destruct (vgroup_spec ord s k G OV phi s' g tr R Q N1) as (phi1 & g1 & s1 & blk & -> & R1 & Q1 & T1 & KV).
      + intros x I. apply VG, in_or_app. auto.
      + intros x y. apply (SG k G). now left.
      + destruct (IH phi1 s1 g1 (tr ++ blk) R1 Q1 N2) as (phi2 & g2 & s2 & blk2 & EQF & R2 & Q2 & T2).
        * intros x I. apply KV; [apply VG, in_or_app; auto|]. intros J. apply (N3 x J I).
        * intros k' G' x y I. apply (SG k' G'). now right.
        * exists phi2, g2, s2, (blk ++ blk2). split; [etransitivity; [exact EQF|]; rewrite app_assoc; reflexivity|]. split; [exact R2|]. split; [exact Q2|]. eapply told_app; [exact T1|exact T2].
  Qed.
  Lemma vloop_spec ord ord_v m fuel : valid_order ord -> valid_order ord_v -> forall h todo (g : iaut A) s tr out, iarep g s -> NoDup todo -> (forall x, In x todo -> In x (aa_V s)) ->
    vminimize_loop fuel ord ord_v m h todo (g, tr) = Some out ->
    exists g' s' tr' k, out = ((g', tr ++ tr'), Ok k) /\ iarep g' s' /\ aa_final s' = aa_final s /\ told (aa_final s) (aa_V s) (aa_T s) tr' (aa_V s') (aa_T s').
  Proof.
    intros OV OVV. induction fuel as [|fuel IH]; intros h todo g s tr out R N VT E; destruct todo as [|q todo]; cbn [vminimize_loop] in E; try discriminate.
    - injection E as <-. exists g, s, [], (Z.of_nat h - 1)%Z. rewrite app_nil_r. split; [reflexivity|]. split; [exact R|]. split; [reflexivity|constructor].
    - injection E as <-. exists g, s, [], (Z.of_nat h - 1)%Z. rewrite app_nil_r. split; [reflexivity|]. split; [exact R|]. split; [reflexivity|constructor].
    - set (todo' := q :: todo) in *. cbn [fst] in E. pose proof (OVV fuel todo') as PO. assert (NO : NoDup (ord_v fuel todo')) by (apply (Permutation_NoDup (Permutation_sym PO)), N).
      destruct (aggregates_ok (fun _ => 0) g (ord_v fuel todo') NO) as (K1 & _ & K3).
      destruct (vgroups_spec ord s (aggregates g (ord_v fuel todo')) OV (fun v => v) s g tr R (lq_id g s R)) as (phi & g1 & s1 & blk & EF & R1 & Q1 & T1).
      + apply (Permutation_NoDup (Permutation_sym K3)). apply (Permutation_NoDup (Permutation_rev _)), NO.
      + intros x I. apply VT. apply (Permutation_in _ PO). apply in_rev. apply (Permutation_in _ K3), I.
      + intros k G x y I Ix Iy. apply (sig_eqb_spec g s x y R). eapply sig_eqb_trans; [apply (K1 k G I x Ix)|]. apply sig_eqb_sym, (K1 k G I y Iy).
      + rewrite EF in E. cbn [fst] in E. apply (IH _ _ g1 s1) in E; [|exact R1|apply NoDup_sof|].
        * destruct E as (g' & s' & tr' & k & -> & R' & F' & T'). exists g', s', (blk ++ tr'), k. rewrite app_assoc. split; [reflexivity|]. split; [exact R'|]. assert (FE : aa_final s1 = aa_final s) by apply Q1. split; [congruence|].
          eapply told_app; [exact T1|]. rewrite <- FE. exact T'.
        * intros x I. rewrite In_sof in I. apply filter_In in I. destruct I as [I _]. apply in_flat_map in I. destruct I as (v & _ & I). apply in_map_iff in I. destruct I as ([p r a] & <- & I). apply (In_obs_in g1 s1 v _ R1) in I. apply (iarep_closed g1 s1 R1 _ _ _ (proj2 I)).
  Qed.
End Told.

(** ** What the calls imply *)
Section Words.
  Context {A : Type} {EA : EqDec A}.
  Lemma redirect_q1 q1 q2 : redirect q1 q2 q1 = q1.
  Proof. unfold redirect. destruct (q1 =? q2); reflexivity. Qed.
  Lemma redirect_q2 q1 q2 : redirect q1 q2 q2 = q1.
  Proof. unfold redirect. rewrite Nat.eqb_refl. reflexivity. Qed.
  Lemma redirect_other q1 q2 r : r <> q2 -> redirect q1 q2 r = r.
  Proof. intros N. unfold redirect. apply Nat.eqb_neq in N. rewrite N. reflexivity. Qed.
  Lemma moved_image V q1 q2 (E : list (edge A)) tr E' : moved V q1 q2 E tr E' -> forall p r a,
    (exists r0, In (Edge p r0 a) E /\ redirect q1 q2 r0 = r) <-> (exists r0, In (Edge p r0 a) E' /\ redirect q1 q2 r0 = r).
  Proof.
    intros M. induction M as [E|E p0 a0 E1 g tr E2 I EI S M IH]; intros p r a; [tauto|]. rewrite <- IH. split.
    - intros (r0 & J & <-). destruct (eqb_spec (Edge p r0 a) (Edge p0 q2 a0)) as [K|K].
      + injection K as -> -> ->. exists q1. split; [apply EI; right; reflexivity|]. rewrite redirect_q1, redirect_q2. reflexivity.
      + exists r0. split; [apply EI; left; auto|reflexivity].
    - intros (r0 & J & <-). apply EI in J. destruct J as [[J _]|[= -> -> ->]]; [eauto|]. exists q2. split; [exact I|]. rewrite redirect_q1, redirect_q2. reflexivity.
  Qed.
  Lemma moved_edges V q1 q2 (E : list (edge A)) tr E' : q1 <> q2 -> moved V q1 q2 E tr E' -> (forall e, In e E' -> target e <> q2) ->
    forall p r a, In (Edge p r a) E' <-> exists r0, In (Edge p r0 a) E /\ redirect q1 q2 r0 = r.
  Proof.
    intros N M NT p r a. rewrite (moved_image V q1 q2 E tr E' M p r a). split.
    - intros I. exists r. split; [exact I|]. apply redirect_other. apply (NT _ I).
    - intros (r0 & I & <-). rewrite redirect_other; [exact I|]. apply (NT _ I).
  Qed.
  (** one merge, between the transitions before and after *)
  Section Block.
    Variables (E E2 : list (edge A)) (q1 q2 : nat) (final : nat -> bool).
    Hypothesis N : q1 <> q2.
    Hypothesis HF : final q1 = final q2.
    Hypothesis HS : forall a r, In (Edge q1 r a) E <-> In (Edge q2 r a) E.
    Hypothesis HE : forall p r a, In (Edge p r a) E2 <-> p <> q2 /\ exists r0, In (Edge p r0 a) E /\ redirect q1 q2 r0 = r.
    Lemma block_fwd x w t : path E x w t -> path E2 (redirect q1 q2 x) w (redirect q1 q2 t).
    Proof.
      induction 1 as [q|q a r w t I P IH]; [constructor|]. econstructor; [|exact IH]. apply HE. destruct (Nat.eq_dec q q2) as [->|Nq].
      - rewrite redirect_q2. split; [exact N|]. exists r. split; [apply HS, I|reflexivity].
      - rewrite redirect_other by exact Nq. split; [exact Nq|]. exists r. auto.
    Qed.
    Lemma block_bwd y w t' : path E2 y w t' -> forall x, redirect q1 q2 x = y -> exists t, path E x w t /\ redirect q1 q2 t = t'.
    Proof.
      induction 1 as [q|q a r w t I P IH]; intros x Ex; [exists x; split; [constructor|exact Ex]|]. apply HE in I. destruct I as (Nq & r0 & I & Er). destruct (IH r0 Er) as (t0 & P0 & Et). exists t0. split; [|exact Et]. econstructor; [|exact P0].
      destruct (Nat.eq_dec x q2) as [->|Nx]; [rewrite redirect_q2 in Ex; subst q; apply HS, I|]. rewrite redirect_other in Ex by exact Nx. subst q. exact I.
    Qed.
    Lemma block_final t : final (redirect q1 q2 t) = final t.
    Proof. destruct (Nat.eq_dec t q2) as [->|Nt]; [rewrite redirect_q2; exact HF|rewrite redirect_other by exact Nt; reflexivity]. Qed.
    Lemma block_right x w : right E final x w <-> right E2 final (redirect q1 q2 x) w.
    Proof.
      split.
      - intros (t & P & F). exists (redirect q1 q2 t). split; [apply block_fwd, P|rewrite block_final; exact F].
      - intros (t & P & F). destruct (block_bwd _ _ _ P x eq_refl) as (t0 & P0 & <-). exists t0. rewrite block_final in F. auto.
    Qed.
    Lemma block_read x w : readable E x w <-> readable E2 (redirect q1 q2 x) w.
    Proof.
      split; [intros (t & P); eexists; apply block_fwd, P|]. intros (t & P). destruct (block_bwd _ _ _ P x eq_refl) as (t0 & P0 & _). exists t0. exact P0.
    Qed.
  End Block.
  Lemma removed_app (t1 t2 : rtrace A) : removed (t1 ++ t2) = removed t1 ++ removed t2.
  Proof. induction t1 as [|[[] g] t1 IH]; cbn [app removed]; rewrite ?IH; reflexivity. Qed.
  Lemma removed_moved V q1 q2 (E : list (edge A)) tr E' : moved V q1 q2 E tr E' -> removed tr = [] /\ forall q1' q2' g, ~ In (MergingStates q1' q2', g) tr.
  Proof. induction 1 as [E|E p a E1 g tr E2 I EI S M [IH1 IH2]]; [split; [reflexivity|intros ? ? ? []]|]. split; [exact IH1|]. intros q1' q2' g' [K|K]; [discriminate|apply (IH2 _ _ _ K)]. Qed.
  Lemma told_words final V (E : list (edge A)) tr V' E' : told final V E tr V' E' ->
    (forall q w, In q V' -> (right E' final q w <-> right E final q w) /\ (readable E' q w <-> readable E q w)) /\
    (forall q1 q2 g, In (MergingStates q1 q2, g) tr -> q1 < q2 /\ In q1 V /\ In q2 V /\ forall w, (right E final q1 w <-> right E final q2 w) /\ (readable E q1 w <-> readable E q2 w)) /\
    (forall q, In q V' <-> In q V /\ ~ In q (removed tr)) /\ NoDup (removed tr) /\ (forall q, In q (removed tr) -> In q V /\ exists q1 g, In (MergingStates q1 q, g) tr).
  Proof.
    induction 1 as [V E|V E q1 q2 g0 moves E1 g1 V2 E2 g2 tr V' E' L V1 V2' F S S0 M T1 S1 EV EE S2 T (IH1 & IH2 & IH3 & IH4 & IH5)].
    - split; [intros; tauto|]. split; [intros ? ? ? []|]. cbn. split; [tauto|]. split; [constructor|]. intros ? [].
    - assert (N : q1 <> q2) by lia.
      assert (HE : forall p r a, In (Edge p r a) E2 <-> p <> q2 /\ exists r0, In (Edge p r0 a) E /\ redirect q1 q2 r0 = r).
      { intros p r a. rewrite EE, (moved_edges V q1 q2 E moves E1 N M T1). cbn [source]. tauto. }
      pose proof (block_right E E2 q1 q2 final N F S HE) as BR. pose proof (block_read E E2 q1 q2 N S HE) as BD.
      destruct (removed_moved _ _ _ _ _ _ M) as [RM NM].
      assert (ER : removed ((MergingStates q1 q2, g0) :: moves ++ (RemoveVertex q2, g1) :: (StatesMerged q1 q2, g2) :: tr) = q2 :: removed tr) by (cbn [removed]; rewrite removed_app, RM; reflexivity).
      rewrite ER. split; [|split; [|split; [|split]]].
      + intros q w Vq. destruct (IH1 q w Vq) as [K1 K2]. apply IH3 in Vq. destruct Vq as [Vq _]. apply EV in Vq. destruct Vq as [_ Nq]. specialize (BR q w). specialize (BD q w). rewrite redirect_other in BR, BD by exact Nq. tauto.
      + intros p1 p2 g I. assert (K : (p1 = q1 /\ p2 = q2) \/ In (MergingStates p1 p2, g) tr).
        { destruct I as [I|I]; [left; split; congruence|]. apply in_app_or in I. destruct I as [I|[I|[I|I]]]; [destruct (NM _ _ _ I)|discriminate|discriminate|right; exact I]. }
        destruct K as [[-> ->]|K].
        * split; [exact L|]. split; [exact V1|]. split; [exact V2'|]. intros w. rewrite (BR q1 w), (BR q2 w), (BD q1 w), (BD q2 w), redirect_q1, redirect_q2. tauto.
        * destruct (IH2 _ _ _ K) as (L' & I1 & I2 & W). apply EV in I1, I2. destruct I1 as [I1 N1], I2 as [I2 N2]. split; [exact L'|]. split; [exact I1|]. split; [exact I2|]. intros w. rewrite (BR p1 w), (BR p2 w), (BD p1 w), (BD p2 w), !redirect_other by assumption. apply W.
      + intros q. rewrite IH3, EV. cbn [In]. split; [intros [[I K] J]; split; [exact I|]; intros [->|K']; auto|intros [I J]; split; [split; [exact I|]|]; [intros ->|intros K]; auto].
      + constructor; [|exact IH4]. intros I. destruct (IH5 _ I) as [I' _]. apply EV in I'. tauto.
      + intros q [<-|I].
        * split; [exact V2'|]. exists q1, g0. left. reflexivity.
        * destruct (IH5 q I) as (I' & p1 & g & J). apply EV in I'. split; [apply I'|]. exists p1, g. right. apply in_or_app. right. right. right. exact J.
  Qed.

  Lemma shows_ext (g : iaut A) V E F : (forall e, In e F <-> In e E) -> shows g V E -> shows g V F.
  Proof. intros X [S1 S2]. split; [exact S1|]. intros e. rewrite X. apply S2. Qed.
  Lemma moved_ext V q1 q2 (E : list (edge A)) tr E1 F : (forall e, In e F <-> In e E) -> moved V q1 q2 E tr E1 -> exists F1, moved V q1 q2 F tr F1 /\ forall e, In e F1 <-> In e E1.
  Proof.
    intros X M0. revert X. destruct M0 as [E0|E0 p a E1' g tr' E2 I EI S M]; intros X; [exists F; split; [constructor|exact X]|]. exists E2. split; [|tauto]. econstructor; [apply X, I| |exact S|exact M]. intros e. rewrite EI, X. tauto.
  Qed.
  Lemma told_ext_final f f' V (E : list (edge A)) tr V' E' : (forall q, f' q = f q) -> told f V E tr V' E' -> told f' V E tr V' E'.
  Proof.
    intros X. induction 1 as [V E|V E q1 q2 g0 moves E1 g1 V2 E2 g2 tr V' E' L V1 V2' F S S0 M T1 S1 EV EE S2 T IH]; [constructor|]. eapply told_merge with (E1 := E1) (V2 := V2) (E2 := E2); eauto. all: rewrite !X; exact F.
  Qed.
  Lemma told_ext f V (E : list (edge A)) tr V' E' F : (forall e, In e F <-> In e E) -> told f V E tr V' E' -> exists F', told f V F tr V' F' /\ forall e, In e F' <-> In e E'.
  Proof.
    intros X T0. revert X. destruct T0 as [V0 E0|V0 E0 q1 q2 g0 moves E1 g1 V2 E2 g2 tr' V3 E3 L V1 V2' FF S S0 M T1 S1 EV EE S2 T]; intros X; [exists F; split; [constructor|exact X]|].
    destruct (moved_ext _ _ _ _ _ _ F X M) as (F1 & M' & X1). exists E3. split; [|tauto]. eapply told_merge with (E1 := F1) (V2 := V2) (E2 := E2); [exact L|exact V1|exact V2'|exact FF| | |exact M'| | |exact EV| |exact S2|exact T].
    - intros a r. rewrite !X. apply S.
    - apply (shows_ext g0 V0 E0 F X S0).
    - intros e I. apply T1, X1, I.
    - apply (shows_ext g1 V0 E1 F1 X1 S1).
    - intros e. rewrite X1. apply EE.
  Qed.
End Words.
