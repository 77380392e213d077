(** Lemmas on the histories of an IncidenceNodeAutomaton. *)
From Verif Require Import Graph GraphProofs Automaton AutomatonSpec AutomatonProofs AutomatonProofs2 AutomatonProofs3 NodeAut RevuzNode RevuzNodeProofs IncNodeHist IncNodeHistSpec Base BaseProofs.

Section P.
  Context {A : Type} {EA : EqDec A}.
  Definition with_last (k : nat) (g : naut A) : naut A := mkNAut k (na_adj g) (na_q0 g) (na_final g) (na_symbol g) (na_pred g).
  Definition vrep (g : naut A) (s : vspec A) : Prop :=
    nrep g (vs_graph s) /\ na_q0 g = vs_q0 s /\ forall q, na_final g q = vs_final s q.

  Lemma remove_vertex_last k (g : naut A) u :
    INA_remove_vertex (with_last k g) u = (with_last k (fst (INA_remove_vertex g u)), snd (INA_remove_vertex g u)).
  Proof.
    unfold INA_remove_vertex. cbn [with_last na_pred na_adj na_symbol]. destruct (dmem (na_pred g) u).
    - destruct (foreach _ (na_adj g) (preds_of (na_pred g) u)) as [m [x|ex]]; [|reflexivity].
      cbn [na_adj na_with_pred na_with_adj]. destruct (dget m u); reflexivity.
    - cbn [with_last na_adj]. destruct (dget (na_adj g) u); reflexivity.
  Qed.
  Lemma clear_aux L : forall (g : naut A) s, nrep g s ->
    exists g', foreach INA_remove_vertex (with_last 0 g) L = (with_last 0 g', Ok tt) /\
      (exists s', nrep g' s' /\ ns_sym s' = ns_sym s /\ forall v, In v (ns_V s') <-> In v (ns_V s) /\ ~ In v L) /\ na_q0 g' = na_q0 g /\ na_final g' = na_final g.
  Proof.
    induction L as [|u L IH]; intros g s R; cbn [foreach].
    - exists g. split; [reflexivity|]. split; [|split; reflexivity]. exists s. split; [exact R|]. split; [reflexivity|]. intros v. cbn. tauto.
    - rewrite remove_vertex_last. destruct (NA_step g s (NRemoveVertex u) R I) as [R1 O1]. destruct (INA_q0 g (NRemoveVertex u)) as [Q1 F1].
      destruct s as [k V T sym]. cbn [INA_call ns_step] in *. destruct (INA_remove_vertex g u) as [g1 [[]|ex]]; [|discriminate O1]. cbn [fst snd] in *.
      destruct (IH _ _ R1) as (g2 & -> & (s2 & R2 & S2 & V2) & Q2 & F2). exists g2. split; [reflexivity|]. split; [|split; congruence].
      exists s2. split; [exact R2|]. split; [exact S2|]. intros v. rewrite V2. cbn [ns_V In]. rewrite filter_In.
      destruct (Nat.eqb_spec v u) as [->|N]; cbn [negb]; intuition congruence.
  Qed.
  Lemma clear_spec (g : naut A) s : nrep g s ->
    exists g', INA_clear g = (g', Ok tt) /\ nrep g' (NS 0 [] [] (ns_sym s)) /\ na_q0 g' = na_q0 g /\ na_final g' = na_final g.
  Proof.
    intros R. unfold INA_clear. fold (with_last 0 g). destruct (clear_aux (NA_vertices (with_last 0 g)) g s R) as (g' & -> & (s' & R' & S' & V') & Q & F).
    exists (with_last 0 g'). split; [reflexivity|]. split; [|split; assumption].
    destruct s' as [k V T sym']. cbn [ns_sym ns_V] in *. subst sym'.
    assert (EV : V = []).
    { destruct V as [|v V]; [reflexivity|]. exfalso. destruct (proj1 (V' v) (or_introl eq_refl)) as [I NI]. apply NI.
      destruct R as ((_ & KV & _) & _). unfold NA_vertices. cbn [with_last na_adj]. rewrite KV. exact I. }
    subst V. destruct R' as ((_ & KV & W & T') & P & C & _). cbn [ns_next ns_V ns_T ns_sym] in *.
    assert (ET : T = []). { destruct T as [|e T]; [reflexivity|]. destruct (C e (or_introl eq_refl)) as (_ & [] & _). }
    subst T. unfold nrep. cbn [with_last na_last na_adj na_symbol na_pred ns_next ns_V ns_T ns_sym]. split; [split; [reflexivity|]; auto|]. split; [exact P|]. split; [exact C|]. intros v [].
  Qed.
  Lemma V_step (g : naut A) s op : vrep g s -> match graph_call op with Some o => ns_disciplined (vs_graph s) o | None => True end ->
    vrep (fst (INA_vcall g op)) (fst (vs_step s op)) /\ snd (INA_vcall g op) = snd (vs_step s op).
  Proof.
    intros (R & Q & F) D.
    assert (GC : forall o, graph_call op = Some o -> INA_vcall g op = INA_call g o /\ vs_step s op = (VS (fst (ns_step (vs_graph s) o)) (vs_q0 s) (vs_final s), snd (ns_step (vs_graph s) o))).
    { intros o E. destruct op as [a|q r|e|u|q b|q b|]; try discriminate E; injection E as <-; (split; [reflexivity|]); unfold vs_step, graph_call;
        match goal with |- context [ns_step ?x ?y] => destruct (ns_step x y) end; reflexivity. }
    destruct (graph_call op) as [o|] eqn:E.
    - destruct (GC o eq_refl) as [-> ->]. destruct (NA_step g _ o R D) as [R1 O1]. destruct (INA_q0 g o) as [Q1 F1]. cbn [fst snd].
      split; [|exact O1]. split; [exact R1|]. cbn [vs_q0 vs_final]. split; [congruence|]. intros q. rewrite F1. apply F.
    - clear GC D. destruct op as [a|q r|e|u|q b|q b|]; try discriminate E; clear E; cbn [INA_vcall].
      + split; [|destruct b; reflexivity]. destruct b; (split; [exact R|]); cbn [vs_step fst vs_q0 vs_final NA_set_initial na_q0 na_final]; rewrite <- ?Q; (split; [reflexivity|exact F]).
      + split; [|reflexivity]. split; [exact R|]. cbn [vs_step fst vs_q0 vs_final NA_set_final na_q0 na_final]. split; [exact Q|]. intros x. destruct (eqb_spec x q), (Nat.eqb_spec x q); congruence || apply F.
      + destruct (clear_spec g _ R) as (g' & -> & R' & Q' & F'). split; [|reflexivity]. split; [exact R'|]. cbn [vs_step fst vs_q0 vs_final]. split; [congruence|]. intros q. rewrite F'. apply F.
  Qed.
  Lemma vrep_init : vrep NA_init vs_init.
  Proof. split; [exact nrep_init|]. split; reflexivity. Qed.
  Lemma vrep_runs ops : forall g s, vrep g s -> vdisciplined s ops ->
    vrep (fst (runs INA_vcall g ops)) (fst (runs vs_step s ops)) /\ snd (runs INA_vcall g ops) = snd (runs vs_step s ops).
  Proof.
    induction ops as [|op ops IH]; intros g s R D; cbn; [tauto|]. destruct D as [D1 D2].
    destruct (V_step g s op R D1) as [R1 O1].
    destruct (INA_vcall g op) as [g1 o], (vs_step s op) as [s1 o']. cbn in *. subst o'.
    destruct (IH _ _ R1 D2) as [R2 O2].
    destruct (runs INA_vcall g1 ops) as [g2 os], (runs vs_step s1 ops) as [s2 os']. cbn in *. subst. tauto.
  Qed.
End P.
