(** IncidenceAutomaton and IncidenceNodeAutomaton: what remains of [in_edges] after calls that overwrite or remove other
    edges than the ones they name. *)
From Verif Require Import Graph GraphProofs Automaton AutomatonSpec AutomatonProofs AutomatonProofs2 AutomatonProofs3 Base BaseProofs.
#[local] Arguments dkeys : simpl never.

(** The calls name existing targets in add_edge, and clear does not raise. *)
Section Safe.
  Context {A : Type} {EA : EqDec A}.
  Definition safe_call (g : iaut A) (op : aop A) : Prop :=
    match op with
    | AAddEdge q r a => In r (IA_vertices g)
    | AClear => snd (IA_call g op) = AOutUnit
    | _ => True
    end.
  Fixpoint safe_calls (g : iaut A) (ops : list (aop A)) : Prop :=
    match ops with
    | [] => True
    | op :: ops' => safe_call g op /\ safe_calls (fst (IA_call g op)) ops'
    end.
End Safe.

Section W.
  Context {A : Type} {EA : EqDec A}.
  Notation tadj := (dict nat (dict A nat)).

  Definition winv (g : iaut A) : Prop :=
    twf (au_adj (ia_base g)) /\ dkeys (ia_in g) = dkeys (au_adj (ia_base g)) /\ iwf (ia_in g) /\
    forall q a r, tr (au_adj (ia_base g)) q a = Some r -> In a (lab (ia_in g) r q).
  Definition lt_last (g : iaut A) : Prop := forall v, In v (IA_vertices g) -> v < au_last (ia_base g).

  Lemma lab_key (m : dict nat (dict nat (list A))) r q a : In a (lab m r q) -> In r (dkeys m).
  Proof. unfold lab. destruct (dget m r) as [d|] eqn:E; [|intros []]. intros _. eapply dget_Some_key. exact E. Qed.

  Lemma del_adj_weak (m : tadj) p a : twf m -> let '(m', o) := del_adj m p a in
    twf m' /\ dkeys m' = dkeys m /\ (forall q b r, tr m' q b = Some r -> tr m q b = Some r) /\ (o = Ok tt -> tr m' p a = None).
  Proof.
    intros W. destruct (tr m p a) as [r|] eqn:E.
    - destruct (del_adj_spec m p a r W E) as (m' & -> & W' & K & T). split; [exact W'|]. split; [exact K|]. split.
      + intros q b x. rewrite T. destruct (same_key q b (Edge p 0 a)); [discriminate|trivial].
      + intros _. rewrite T. destruct (same_key_spec p a (Edge p 0 a)); [reflexivity|]. cbn in *. tauto.
    - unfold del_adj. destruct (dget m p) as [d|] eqn:D; [|repeat split; auto; apply W || discriminate]. unfold tr in E. rewrite D in E. unfold dmem. rewrite E. split; [exact W|]. split; [reflexivity|]. split; [auto|discriminate].
  Qed.
  Lemma del_adjs_weak (L : list (edge A)) : forall m : tadj, twf m -> let '(m', o) := foreach (fun m e => del_adj m (source e) (distinguisher e)) m L in
    twf m' /\ dkeys m' = dkeys m /\ (forall q b r, tr m' q b = Some r -> tr m q b = Some r) /\ (o = Ok tt -> forall e, In e L -> tr m' (source e) (distinguisher e) = None).
  Proof.
    induction L as [|e L IH]; intros m W; cbn [foreach].
    - split; [exact W|]. split; [reflexivity|]. split; [auto|intros _ e []].
    - pose proof (del_adj_weak m (source e) (distinguisher e) W) as H. destruct (del_adj m (source e) (distinguisher e)) as [m1 [[]|ex]]; destruct H as (W1 & K1 & T1 & N1).
      + specialize (IH m1 W1). destruct (foreach _ m1 L) as [m2 o]. destruct IH as (W2 & K2 & T2 & N2). split; [exact W2|]. split; [congruence|]. split; [auto|].
        intros Ho e' [<-|I]; [|auto]. destruct (tr m2 (source e) (distinguisher e)) eqn:X; [|reflexivity]. apply T2 in X. rewrite N1 in X; congruence.
      + split; [exact W1|]. split; [exact K1|]. split; [exact T1|discriminate].
  Qed.

  Lemma winv_remove_vertex g u : winv g -> let '(g', o) := IA_remove_vertex g u in
    winv g' /\ au_last (ia_base g') = au_last (ia_base g) /\ (forall v, In v (IA_vertices g') -> In v (IA_vertices g)) /\
    (o = Ok tt -> forall v, In v (IA_vertices g') -> v <> u).
  Proof.
    intros (W & K & WI & H). unfold IA_remove_vertex, IA_vertices, A_vertices. destruct (dmem (ia_in g) u) eqn:M.
    - pose proof (del_adjs_weak (IA_in_edges g u) (au_adj (ia_base g)) W) as D.
      match goal with |- context [foreach ?f ?x ?y] => change (foreach f x y) with
        (foreach (fun m (e : edge A) => del_adj m (source e) (distinguisher e)) (au_adj (ia_base g)) (IA_in_edges g u)) end.
      destruct (foreach _ (au_adj (ia_base g)) (IA_in_edges g u)) as [m1 [[]|ex]]; destruct D as (W1 & K1 & T1 & N1).
      + cbn [ia_base au_adj ia_in au_last]. assert (M1 : dmem m1 u = true) by (apply dmem_spec; rewrite K1, <- K; apply dmem_spec; exact M). rewrite M1.
        assert (NU : forall q a r, tr m1 q a = Some r -> r <> u).
        { intros q a r E ->. pose proof (H _ _ _ (T1 _ _ _ E)) as I. specialize (N1 eq_refl (Edge q u a)). cbn in N1. rewrite N1 in E; [discriminate|]. apply In_in_edges; auto. }
        assert (OE : forall e, In e (A_out_edges (mkAut (au_last (ia_base g)) m1 (au_q0 (ia_base g)) (au_final (ia_base g))) u) -> source e = u /\ tr m1 u (distinguisher e) = Some (target e)).
        { intros [q r a]. unfold A_out_edges. cbn [au_adj]. destruct (dget m1 u) as [d|] eqn:E; [|intros []]. intros I. apply in_map_iff in I. destruct I as ((a' & r') & [= -> -> ->] & I). cbn. split; [reflexivity|].
          unfold tr. rewrite E. apply In_dget; [eapply W1; exact E|exact I]. }
        destruct (out_steps_spec u (A_out_edges (mkAut (au_last (ia_base g)) m1 (au_q0 (ia_base g)) (au_final (ia_base g))) u) (ddel (ia_in g) u)) as (m2 & E2 & W2 & K2 & L2).
        { apply iwf_ddel. exact WI. }
        { intros e I. apply OE in I. destruct I as [_ I]. rewrite dkeys_ddel by apply WI. apply In_srem. split; [apply (NU _ _ _ I)|]. eapply lab_key. apply H. apply T1. exact I. }
        rewrite E2. cbn [ia_base au_adj ia_in au_last]. split; [|split; [reflexivity|split]].
        * split; [apply twf_ddel; exact W1|]. cbn [ia_in ia_base au_adj]. split; [rewrite K2, !dkeys_ddel by (apply WI || apply W1); congruence|]. split; [exact W2|].
          intros q a r. rewrite tr_ddel by apply W1. destruct (BaseProofs.eqb_spec q u) as [->|Nq]; [discriminate|]. intros E. rewrite L2. destruct (Nat.eqb_spec q u); [congruence|]. cbn [andb].
          rewrite lab_ddel by apply WI. destruct (BaseProofs.eqb_spec r u) as [->|]; [exfalso; exact (NU _ _ _ E eq_refl)|]. apply H, T1, E.
        * intros v I. rewrite dkeys_ddel in I by apply W1. apply In_srem in I. rewrite K1 in I. apply I.
        * intros _ v I. rewrite dkeys_ddel in I by apply W1. apply In_srem in I. apply I.
      + cbn [ia_base au_adj ia_in au_last]. split; [|split; [reflexivity|split; [|discriminate]]].
        * split; [exact W1|]. cbn [ia_in ia_base au_adj]. split; [congruence|]. split; [exact WI|]. intros q a r E. apply H, T1, E.
        * intros v I. rewrite K1 in I. exact I.
    - assert (M1 : dmem (au_adj (ia_base g)) u = false) by (apply dmem_false; rewrite <- K; apply dmem_false; exact M). rewrite M1. split; [exact (conj W (conj K (conj WI H)))|]. split; [reflexivity|]. split; [auto|].
      intros _ v I ->. apply dmem_false in M1. contradiction.
  Qed.

  Lemma winv_clear L : forall g, winv g -> let '(g', o) := foreach IA_remove_vertex g L in
    winv g' /\ (o = Ok tt -> forall v, In v (IA_vertices g') -> In v (IA_vertices g) /\ ~ In v L).
  Proof.
    induction L as [|u L IH]; intros g I; cbn [foreach]; [split; [exact I|]; auto|].
    pose proof (winv_remove_vertex g u I) as R. destruct (IA_remove_vertex g u) as [g1 [[]|ex]]; destruct R as (I1 & _ & V1 & N1).
    - specialize (IH g1 I1). destruct (foreach IA_remove_vertex g1 L) as [g2 o]. destruct IH as [I2 V2]. split; [exact I2|]. intros Ho v Iv. destruct (V2 Ho v Iv) as [X Y]. split; [auto|].
      intros [->|Z]; [exact (N1 eq_refl v X eq_refl)|exact (Y Z)].
    - split; [exact I1|discriminate].
  Qed.

  Lemma winv_call g op : winv g -> lt_last g -> safe_call g op -> winv (fst (IA_call g op)) /\ lt_last (fst (IA_call g op)).
  Proof.
    intros I LT S. pose proof I as (W & K & WI & H). destruct op as [|q r a|e|u|q b|q b|]; cbn [IA_call].
    - unfold IA_add_vertex, A_add_vertex. cbn [fst]. set (k := au_last (ia_base g)) in *.
      assert (NK : ~ In k (dkeys (au_adj (ia_base g)))) by (intros X; apply LT in X; unfold k in X; lia).
      split.
      + split; [apply twf_dset; [exact W|constructor]|]. cbn [ia_base ia_in au_adj]. split; [rewrite !dkeys_dset_new by (try rewrite K; exact NK); congruence|]. split.
        * apply iwf_dset; [exact WI|]. split; [constructor|intros q s; discriminate].
        * intros q a r. rewrite tr_dset. destruct (BaseProofs.eqb_spec q k) as [->|]; [discriminate|]. intros E. apply H in E. rewrite lab_dset. destruct (BaseProofs.eqb_spec r k) as [->|]; [|exact E].
          exfalso. apply NK. rewrite <- K. eapply lab_key. exact E.
      + unfold lt_last, IA_vertices, A_vertices in *. cbn [ia_base au_adj au_last]. intros v Iv. rewrite dkeys_dset_new in Iv by exact NK. apply in_app_iff in Iv. destruct Iv as [Iv|[<-|[]]]; [apply LT in Iv; fold k in Iv; lia|lia].
    - cbn in S. unfold IA_vertices, A_vertices in S. unfold IA_add_edge, A_add_edge. destruct (negb _); [cbn [fst]; destruct g; split; assumption|].
      destruct (dget (au_adj (ia_base g)) q) as [d|] eqn:D; [|cbn [fst]; destruct g; split; assumption].
      pose proof S as S'. rewrite <- K in S'. apply key_dget in S'. destruct S' as (dr & Er). rewrite Er. cbn [fst].
      destruct (proj2 WI _ _ Er) as [Nd Ds]. assert (Iq : In q (dkeys (au_adj (ia_base g)))) by (eapply dget_Some_key; exact D).
      assert (Ir : In r (dkeys (ia_in g))) by (rewrite K; exact S). split.
      + split; [apply twf_dset; [exact W|apply NoDup_dset; eapply W; exact D]|]. cbn [ia_base ia_in au_adj]. split; [rewrite !dkeys_dset_old by assumption; exact K|]. split.
        * apply iwf_dset; [exact WI|]. split; [apply NoDup_dset; exact Nd|]. intros q' s'. rewrite dget_dset. destruct (BaseProofs.eqb_spec q' q) as [->|]; [|apply Ds]. intros [= <-].
          destruct (dget dr q) as [s0|] eqn:Dq; [|split; [repeat constructor; intros []|discriminate]]. split; [apply NoDup_sadd; apply (Ds q s0 Dq)|]. intros X.
          assert (In a (sadd a s0)) as Ia by (apply In_sadd; left; reflexivity). rewrite X in Ia. destruct Ia.
        * intros q' a' r'. rewrite tr_dset, lab_dset. destruct (BaseProofs.eqb_spec q' q) as [->|Nq].
          -- rewrite !dget_dset, eqb_refl. destruct (BaseProofs.eqb_spec a' a) as [->|Na].
             ++ intros [= ->]. rewrite eqb_refl. destruct (dget dr q); [apply In_sadd|]; left; reflexivity.
             ++ intros E. assert (E' : tr (au_adj (ia_base g)) q a' = Some r') by (unfold tr; rewrite D; exact E). apply H in E'. destruct (BaseProofs.eqb_spec r' r) as [->|]; [|exact E'].
                unfold lab in E'. rewrite Er in E'. destruct (dget dr q); [apply In_sadd; right; exact E'|destruct E'].
          -- intros E. apply H in E. destruct (BaseProofs.eqb_spec r' r) as [->|]; [|exact E]. rewrite dget_dset. destruct (BaseProofs.eqb_spec q' q); [contradiction|]. unfold lab in E. rewrite Er in E. exact E.
      + intros v. unfold IA_vertices, A_vertices. cbn [ia_base au_adj au_last]. rewrite dkeys_dset_old by exact Iq. apply LT.
    - unfold IA_remove_edge. pose proof (remove_edge_spec (ia_base g) e W) as RS.
      assert (RE : exists b, A_remove_edge (ia_base g) e = (b, Ok tt) /\ twf (au_adj b) /\ dkeys (au_adj b) = dkeys (au_adj (ia_base g)) /\ au_last b = au_last (ia_base g) /\
         forall q a r, tr (au_adj b) q a = Some r <-> tr (au_adj (ia_base g)) q a = Some r /\ ~ (q = source e /\ a = distinguisher e)).
      { destruct RS as (m' & E & W' & K' & T'). eexists. split; [exact E|]. cbn. split; [exact W'|]. split; [exact K'|]. split; [reflexivity|]. intros q a r. rewrite T'.
        destruct (same_key_spec q a e) as [[X Y]|X]; [split; [discriminate|]; intros [_ Z]; exfalso; apply Z; auto|]. split; [intros Z; split; [exact Z|intros [-> ->]; tauto]|tauto]. }
      destruct RE as (b & -> & W' & K' & LL & T').
      assert (LT' : forall m, lt_last (mkIAut b m)) by (intros m v; unfold IA_vertices, A_vertices; cbn [ia_base]; rewrite K', LL; apply LT).
      assert (I0 : winv (mkIAut b (ia_in g))). { split; [exact W'|]. cbn [ia_in ia_base]. split; [congruence|]. split; [exact WI|]. intros q a r E. apply T' in E. apply H. apply E. }
      destruct (dget (ia_in g) (target e)) as [d|] eqn:D; [|split; [exact I0|apply LT']]. destruct (dget d (source e)) as [s|] eqn:Dd; [|split; [exact I0|apply LT']].
      destruct (mem (distinguisher e) s) eqn:Ms; [|split; [exact I0|apply LT']]. cbn [fst]. split; [|apply LT'].
      destruct (proj2 WI _ _ D) as [Nd Ds]. destruct (Ds _ _ Dd) as [Ns _].
      set (d' := match srem (distinguisher e) s with [] => ddel d (source e) | _ => dset d (source e) (srem (distinguisher e) s) end).
      assert (X : (match srem (distinguisher e) s with [] => ddel d (source e) | _ :: _ => dset d (source e) (srem (distinguisher e) s) end) = d') by reflexivity.
      assert (GD : forall q', match dget d' q' with None => [] | Some s => s end = if eqb q' (source e) then srem (distinguisher e) s else match dget d q' with None => [] | Some s => s end).
      { intros q'. unfold d'. destruct (srem (distinguisher e) s) as [|x l] eqn:Es.
        - rewrite dget_ddel by exact Nd. destruct (eqb q' (source e)); reflexivity.
        - rewrite dget_dset. destruct (eqb q' (source e)); reflexivity. }
      split; [exact W'|]. cbn [ia_in ia_base]. split; [rewrite dkeys_dset_old by (eapply dget_Some_key; exact D); congruence|]. split.
      + apply iwf_dset; [exact WI|]. change (NoDup (dkeys d') /\ forall q s0, dget d' q = Some s0 -> NoDup s0 /\ s0 <> []). unfold d'. destruct (srem (distinguisher e) s) as [|x l] eqn:Es.
        * split; [apply NoDup_ddel; exact Nd|]. intros q' s'. rewrite dget_ddel by exact Nd. destruct (eqb q' (source e)); [discriminate|apply Ds].
        * split; [apply NoDup_dset; exact Nd|]. intros q' s'. rewrite dget_dset. destruct (eqb q' (source e)); [|apply Ds]. intros [= <-]. split; [rewrite <- Es; apply NoDup_srem; exact Ns|discriminate].
      + intros q a r E. apply T' in E. destruct E as [E NE]. apply H in E. rewrite lab_dset. destruct (BaseProofs.eqb_spec r (target e)) as [->|]; [|exact E].
        unfold lab in E. rewrite D in E. change (In a (match dget d' q with None => [] | Some s => s end)). rewrite GD. destruct (BaseProofs.eqb_spec q (source e)) as [->|]; [|exact E]. rewrite Dd in E.
        apply In_srem. split; [|exact E]. intros ->. apply NE. auto.
    - pose proof (winv_remove_vertex g u I) as R. destruct (IA_remove_vertex g u) as [g' o]. destruct R as (R1 & R2 & R3 & _). cbn [fst]. split; [exact R1|]. intros v Iv. rewrite R2. apply LT, R3, Iv.
    - cbn [fst]. split; [exact I|exact LT].
    - cbn [fst]. split; [exact I|exact LT].
    - cbn [safe_call IA_call] in S. unfold IA_clear in *. match type of S with context [foreach IA_remove_vertex ?x ?y] => set (g0 := x) in * end.
      assert (I0 : winv g0) by exact I. pose proof (winv_clear (IA_vertices g0) g0 I0) as C. destruct (foreach IA_remove_vertex g0 (IA_vertices g0)) as [g' o]. destruct C as [C1 C2]. cbn [fst snd] in *.
      split; [exact C1|]. intros v Iv. destruct o as [[]|ex]; [|discriminate]. destruct (C2 eq_refl v Iv) as [X Y]. contradiction.
  Qed.

  Lemma winv_runs ops : forall g, winv g -> lt_last g -> safe_calls g ops -> winv (fst (runs IA_call g ops)) /\ lt_last (fst (runs IA_call g ops)).
  Proof.
    induction ops as [|op ops IH]; intros g I LT S; [split; assumption|]. destruct S as [S1 S2]. destruct (winv_call g op I LT S1) as [I1 L1]. cbn [runs].
    destruct (IA_call g op) as [g1 o]. cbn [fst] in *. specialize (IH g1 I1 L1 S2). destruct (runs IA_call g1 ops). exact IH.
  Qed.
  Lemma winv_init n : winv (IA_init n) /\ lt_last (IA_init n).
  Proof.
    destruct (iarep_init (A := A) n) as (R & K & W & L & C). pose proof R as (R1 & R2 & R3 & R4 & R5 & R6 & R7). split.
    - split; [exact R3|]. split; [congruence|]. split; [exact W|]. intros q a r E. apply R4 in E. destruct E.
    - intros v Iv. unfold IA_vertices, A_vertices in Iv. rewrite R2 in Iv. rewrite R1. apply R7. exact Iv.
  Qed.
End W.
