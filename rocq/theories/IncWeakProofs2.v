(** The same for IncidenceNodeAutomaton. *)
From Verif Require Import Graph GraphProofs Automaton AutomatonSpec AutomatonProofs AutomatonProofs2 AutomatonProofs3 IncWeakProofs Base BaseProofs.
#[local] Arguments dkeys : simpl never.

Section NSafe.
  Context {A : Type} {EA : EqDec A}.
  (** add_edge names an existing target. *)
  Fixpoint nsafe_calls (g : naut A) (ops : list (nop A)) : Prop :=
    match ops with
    | [] => True
    | op :: ops' => match op with NAddEdge q r => In r (NA_vertices g) | _ => True end /\ nsafe_calls (fst (INA_call g op)) ops'
    end.
End NSafe.

Section W.
  Context {A : Type} {EA : EqDec A}.
  Definition wninv (g : naut A) : Prop :=
    twf (na_adj g) /\ NoDup (dkeys (na_pred g)) /\ (forall r, NoDup (preds_of (na_pred g) r)) /\
    (forall q a r, tr (na_adj g) q a = Some r -> a = na_symbol g r /\ In q (preds_of (na_pred g) r) /\ In r (dkeys (na_adj g))) /\
    (forall v, In v (dkeys (na_adj g)) -> v < na_last g).

  Lemma ndel_weak (a : option A) (L : list nat) : forall m, twf m -> let '(m', o) := foreach (fun m p => ndel_adj m p a) m L in
    twf m' /\ dkeys m' = dkeys m /\ (forall q b r, tr m' q b = Some r -> tr m q b = Some r) /\ (o = Ok tt -> forall p, In p L -> tr m' p a = None).
  Proof.
    induction L as [|p L IH]; intros m W; cbn [foreach].
    - split; [exact W|]. split; [reflexivity|]. split; [auto|intros _ e []].
    - change (ndel_adj m p a) with (del_adj m p a). pose proof (del_adj_weak m p a W) as H. destruct (del_adj m p a) as [m1 [[]|ex]]; destruct H as (W1 & K1 & T1 & N1).
      + specialize (IH m1 W1). destruct (foreach _ m1 L) as [m2 o]. destruct IH as (W2 & K2 & T2 & N2). split; [exact W2|]. split; [congruence|]. split; [auto|].
        intros Ho p' [<-|I]; [|auto]. destruct (tr m2 p a) eqn:X; [|reflexivity]. apply T2 in X. rewrite N1 in X; congruence.
      + split; [exact W1|]. split; [exact K1|]. split; [exact T1|discriminate].
  Qed.

  Lemma wninv_call g op : wninv g -> match op with NAddEdge q r => In r (NA_vertices g) | _ => True end -> wninv (fst (INA_call g op)).
  Proof.
    intros I S. pose proof I as (W & K & D & H & LT). destruct op as [a|q r|e|u]; cbn [INA_call].
    - unfold NA_add_vertex. cbn [fst]. set (k := na_last g) in *. assert (NK : ~ In k (dkeys (na_adj g))) by (intros X; apply LT in X; lia).
      split; [apply twf_dset; [exact W|constructor]|]. cbn [na_pred na_adj na_symbol na_last]. split; [exact K|]. split; [exact D|]. split.
      + intros q b r. rewrite tr_dset. destruct (BaseProofs.eqb_spec q k) as [->|]; [discriminate|]. intros E. destruct (H _ _ _ E) as (H1 & H2 & H3). split; [|split; [exact H2|rewrite dkeys_dset_new by exact NK; apply in_app_iff; auto]].
        destruct a as [a|]; [|exact H1]. destruct (BaseProofs.eqb_spec r k) as [->|]; [contradiction|exact H1].
      + intros v Iv. rewrite dkeys_dset_new in Iv by exact NK. apply in_app_iff in Iv. destruct Iv as [Iv|[<-|[]]]; [apply LT in Iv; lia|lia].
    - unfold INA_add_edge, NA_add_edge. destruct (dget (na_adj g) q) as [d|] eqn:Dq; [|exact I]. unfold dmem. destruct (dget d (na_symbol g r)) as [x|] eqn:Dx; [exact I|]. cbn [fst na_with_pred na_with_adj na_adj na_pred na_symbol na_last].
      assert (Iq : In q (dkeys (na_adj g))) by (eapply dget_Some_key; exact Dq).
      split; [apply twf_dset; [exact W|apply NoDup_dset; apply (proj2 W q); exact Dq]|]. cbn [na_with_pred na_with_adj na_adj na_pred na_symbol na_last]. split; [apply NoDup_dset; exact K|]. split; [|split].
      + intros r'. rewrite preds_dset. destruct (r' =? r); [apply NoDup_sadd|]; apply D.
      + intros q' a' r'. rewrite tr_dset, preds_dset, dkeys_dset_old by exact Iq. destruct (BaseProofs.eqb_spec q' q) as [->|Nq].
        * rewrite dget_dset. destruct (BaseProofs.eqb_spec a' (na_symbol g r)) as [->|Na].
          -- intros [= <-]. rewrite Nat.eqb_refl. split; [reflexivity|]. split; [apply In_sadd; left; reflexivity|exact S].
          -- intros E. assert (E' : tr (na_adj g) q a' = Some r') by (unfold tr; rewrite Dq; exact E). destruct (H _ _ _ E') as (H1 & H2 & H3). split; [exact H1|]. split; [|exact H3].
             destruct (Nat.eqb_spec r' r) as [->|]; [apply In_sadd; right|]; exact H2.
        * intros E. destruct (H _ _ _ E) as (H1 & H2 & H3). split; [exact H1|]. split; [|exact H3]. destruct (Nat.eqb_spec r' r) as [->|]; [apply In_sadd; right|]; exact H2.
      + intros v. rewrite dkeys_dset_old by exact Iq. apply LT.
    - assert (RE : let g1 := NA_remove_edge g e in twf (na_adj g1) /\ dkeys (na_adj g1) = dkeys (na_adj g) /\ na_pred g1 = na_pred g /\ na_symbol g1 = na_symbol g /\ na_last g1 = na_last g /\
         forall q a r, tr (na_adj g1) q a = Some r -> tr (na_adj g) q a = Some r /\ ~ (q = source e /\ a = na_symbol g (target e))).
      { unfold NA_remove_edge. destruct (dget (na_adj g) (source e)) as [d|] eqn:Dd.
        - unfold dmem. destruct (dget d (na_symbol g (target e))) as [x|] eqn:Dx; cbn.
          + assert (Nd : NoDup (dkeys d)) by (eapply W; exact Dd). split; [apply twf_dset; [exact W|apply NoDup_ddel; exact Nd]|]. split; [apply dkeys_dset_old; eapply dget_Some_key; exact Dd|]. repeat (split; [reflexivity|]).
            intros q a r. rewrite tr_dset. destruct (BaseProofs.eqb_spec q (source e)) as [->|Nq]; [|intros E; split; [exact E|intros [-> _]; congruence]].
            rewrite dget_ddel by exact Nd. destruct (BaseProofs.eqb_spec a (na_symbol g (target e))) as [->|Na]; [discriminate|]. intros E. split; [unfold tr; rewrite Dd; exact E|intros [_ ->]; congruence].
          + split; [exact W|]. repeat (split; [reflexivity|]). intros q a r E. split; [exact E|]. intros [-> ->]. unfold tr in E. rewrite Dd, Dx in E. discriminate.
        - split; [exact W|]. repeat (split; [reflexivity|]). intros q a r E. split; [exact E|]. intros [-> ->]. unfold tr in E. rewrite Dd in E. discriminate. }
      unfold INA_remove_edge. cbv zeta in *. set (g1 := NA_remove_edge g e) in *. destruct RE as (W1 & K1 & P1 & S1 & L1 & T1). destruct (mem (source e) (preds_of (na_pred g1) (target e))) eqn:M; cbn [fst].
      + split; [exact W1|]. cbn [na_with_pred na_adj na_pred na_symbol na_last]. rewrite P1. split; [apply NoDup_dset; exact K|]. split; [|split].
        * intros r'. rewrite preds_dset. destruct (r' =? target e); [apply NoDup_srem|]; apply D.
        * intros q a r E. destruct (T1 _ _ _ E) as [E0 NE]. destruct (H _ _ _ E0) as (H1 & H2 & H3). rewrite S1. split; [exact H1|]. rewrite K1. split; [|exact H3]. rewrite preds_dset. destruct (Nat.eqb_spec r (target e)) as [->|]; [|exact H2].
          apply In_srem. split; [|exact H2]. intros ->. apply NE. auto.
        * intros v. rewrite K1, L1. apply LT.
      + split; [exact W1|]. rewrite P1. split; [exact K|]. split; [exact D|]. split.
        * intros q a r E. destruct (T1 _ _ _ E) as [E0 _]. rewrite S1, K1. exact (H _ _ _ E0).
        * intros v. rewrite K1, L1. apply LT.
    - unfold INA_remove_vertex.
      assert (ST : let s1 := (if dmem (na_pred g) u then
        match foreach (fun m p => ndel_adj m p (na_symbol g u)) (na_adj g) (preds_of (na_pred g) u) with
        | (m, Raise ex) => (na_with_adj g m, Raise ex)
        | (m, Ok _) => (na_with_pred (na_with_adj g m) (ddel (na_pred g) u), Ok tt)
        end else (g, Ok tt)) in
        match s1 with
        | (g1, Ok _) => twf (na_adj g1) /\ dkeys (na_adj g1) = dkeys (na_adj g) /\ NoDup (dkeys (na_pred g1)) /\ (forall r, NoDup (preds_of (na_pred g1) r)) /\ na_last g1 = na_last g /\
            forall q a r, tr (na_adj g1) q a = Some r -> r <> u /\ a = na_symbol g1 r /\ In q (preds_of (na_pred g1) r) /\ In r (dkeys (na_adj g1))
        | (g1, Raise _) => wninv g1
        end).
      { cbv zeta. destruct (dmem (na_pred g) u) eqn:M.
        - pose proof (ndel_weak (na_symbol g u) (preds_of (na_pred g) u) (na_adj g) W) as N. destruct (foreach _ (na_adj g) (preds_of (na_pred g) u)) as [m [[]|ex]]; destruct N as (N1 & N2 & N3 & N4).
          + split; [exact N1|]. cbn [na_with_pred na_with_adj na_adj na_pred na_symbol na_last]. split; [exact N2|]. split; [apply NoDup_ddel; exact K|]. split; [intros r; rewrite preds_ddel by exact K; destruct (r =? u); [constructor|apply D]|]. split; [reflexivity|].
            intros q a r E. destruct (H _ _ _ (N3 _ _ _ E)) as (H1 & H2 & H3). assert (r <> u). { intros ->. rewrite H1 in E. rewrite (N4 eq_refl q H2) in E. discriminate. }
            split; [assumption|]. split; [exact H1|]. rewrite preds_ddel by exact K. destruct (Nat.eqb_spec r u); [contradiction|]. split; [exact H2|]. rewrite N2. exact H3.
          + split; [exact N1|]. cbn [na_with_adj na_adj na_pred na_symbol na_last]. split; [exact K|]. split; [exact D|]. split.
            * intros q a r E. destruct (H _ _ _ (N3 _ _ _ E)) as (H1 & H2 & H3). rewrite N2. auto.
            * intros v. rewrite N2. apply LT.
        - split; [exact W|]. split; [reflexivity|]. split; [exact K|]. split; [exact D|]. split; [reflexivity|]. intros q a r E. destruct (H _ _ _ E) as (H1 & H2 & H3). split; [|auto].
          intros ->. unfold preds_of in H2. apply dmem_false in M. rewrite (proj2 (dget_None _ _) M) in H2. destruct H2. }
      cbv zeta in ST. match type of ST with match ?x with _ => _ end => destruct x as [g1 [[]|ex]] end; [|exact ST]. destruct ST as (W1 & K1 & P1 & D1 & L1 & T1).
      destruct (dget (na_adj g1) u) as [d|] eqn:Du; cbn [fst].
      + destruct (out_preds_spec u (map snd d) (na_pred g1) P1 D1) as (O1 & O2 & O3). split; [apply twf_ddel; exact W1|]. cbn [na_with_pred na_with_adj na_adj na_pred na_symbol na_last]. split; [exact O1|]. split; [exact O2|]. split.
        * intros q a r. rewrite tr_ddel by apply W1. destruct (BaseProofs.eqb_spec q u) as [->|Nq]; [discriminate|]. intros E. destruct (T1 _ _ _ E) as (H0 & H1 & H2 & H3). split; [exact H1|]. split; [apply O3; split; [exact H2|tauto]|].
          rewrite dkeys_ddel by apply W1. apply In_srem. auto.
        * intros v. rewrite dkeys_ddel by apply W1. intros Iv. apply In_srem in Iv. rewrite K1 in Iv. rewrite L1. apply LT. apply Iv.
      + split; [exact W1|]. split; [exact P1|]. split; [exact D1|]. split; [intros q a r E; apply T1 in E; tauto|]. intros v. rewrite K1, L1. apply LT.
  Qed.

  Lemma wninv_runs ops : forall g, wninv g -> nsafe_calls g ops -> wninv (fst (runs INA_call g ops)).
  Proof.
    induction ops as [|op ops IH]; intros g I S; [exact I|]. destruct S as [S1 S2]. pose proof (wninv_call g op I S1) as I1. cbn [runs].
    destruct (INA_call g op) as [g1 o]. cbn [fst] in *. specialize (IH g1 I1 S2). destruct (runs INA_call g1 ops). exact IH.
  Qed.
  Lemma wninv_init : wninv NA_init.
  Proof. split; [split; [constructor|discriminate]|]. split; [constructor|]. split; [intros r; constructor|]. split; [discriminate|intros v []]. Qed.
End W.
