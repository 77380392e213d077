(** Lemmas on revuz_minimize on an IncidenceNodeAutomaton with cycles. The proofs follow RevuzCycleProofs2.v. *)
From Coq Require Import ZArith.
From Verif Require Import Graph GraphProofs Automaton AutomatonSpec AutomatonProofs AutomatonProofs2 NodeAut Heap Revuz RevuzSpec RevuzProofs RevuzProofs2 RevuzProofs3 RevuzNode RevuzNodeProofs RevuzCycleSpec RevuzCycleProofs2 Base BaseProofs.

Section M.
  Context {A : Type} {EA : EqDec A}.
  Notation aaut := (aaut (option A)).
  Variables (sym : nat -> option A) (ht : nat -> nat) (B : nat).

  Record ncinv (s0 : aaut) (h : nat) (todo : list nat) (s : aaut) : Prop := {
    nc_h : h <= B;
    nc_q0 : aa_q0 s = aa_q0 s0;
    nc_final : aa_final s = aa_final s0;
    nc_V : forall v, In v (aa_V s) -> In v (aa_V s0);
    nc_same : forall v, In v (aa_V s) -> same_ends ht B s0 s v v;
    nc_down : forall p r a, In (Edge p r a) (aa_T s) -> (ht r < ht p < B) \/ ht r = B;
    nc_next : forall p n, In p (aa_V s) -> ht p = S n -> ht p < B -> exists r a, In (Edge p r a) (aa_T s) /\ ht r = n;
    nc_leaf : forall p r a, In (Edge p r a) (aa_T s) -> ht p < B -> ht p <> 0;
    nc_loop : forall p, In p (aa_V s) -> ht p = B -> exists r a, In (Edge p r a) (aa_T s);
    nc_frozen : forall p, ht p = B -> (In p (aa_V s0) -> In p (aa_V s)) /\ forall r a, In (Edge p r a) (aa_T s) <-> In (Edge p r a) (aa_T s0);
    nc_todo : NoDup todo /\ forall v, In v todo <-> In v (aa_V s) /\ ht v = h /\ h < B;
    nc_uniq : forall x y, In x (aa_V s) -> In y (aa_V s) -> ht x < h -> nsigeq sym s x y -> x = y;
    nc_removed : forall v, In v (aa_V s0) -> ~ In v (aa_V s) -> exists q, In q (aa_V s) /\ (q < v /\ ht q = ht v) /\ sym q = sym v /\ same_ends ht B s0 s0 q v }.

  Variable heights : dict nat nat.
  Hypothesis HH : forall v, ht v < B -> height_of heights v = ht v.
  Hypothesis HB : forall v, ht v <= B.

  Lemma ncinv_step ord s0 h todo l s (g : naut A) : valid_order ord -> narep sym g s -> ncinv s0 h todo s -> h < B -> Permutation l todo ->
    exists m g' s', naggregates g l = (m, Ok tt) /\ foreach (nmerge_group ord) g m = (g', Ok tt) /\ narep sym g' s' /\
      ncinv s0 (S h) (sof (filter (fun p => height_of heights p =? S h) (flat_map (fun q => map source (INA_in_edges g' q)) todo))) s'.
  Proof.
    intros OV R I HLT PL. destruct (nc_todo _ _ _ _ I) as [TN TI].
    destruct (nlevel_merge sym ht ord h s g l OV R) as (m & g' & s' & phi & EM & E & R' & [Q QS] & U).
    { apply (Permutation_NoDup (Permutation_sym PL)), TN. }
    { intros v. transitivity (In v todo); [split; apply Permutation_in; [exact PL|symmetry; exact PL]|]. rewrite TI. tauto. }
    exists m, g', s'. split; [exact EM|]. split; [exact E|]. split; [exact R'|].
    assert (VV : forall v, In v (aa_V s') -> In v (aa_V s) /\ phi v = v) by (intros v; apply (q_V _ _ _ _ _ Q)).
    assert (VP : forall v, In v (aa_V s) -> In (phi v) (aa_V s')) by (intros v J; apply (q_V _ _ _ _ _ Q); split; [apply (q_in _ _ _ _ _ Q), J|apply (q_idem _ _ _ _ _ Q)]).
    assert (DEAD : forall v, ht v = B -> phi v = v) by (intros v Hv; apply (q_level _ _ _ _ _ Q); lia).
    assert (SE : forall v, same_ends ht B s s' v (phi v)) by (intros v; apply (quo_ends ht B h phi s s' v HLT Q)).
    assert (DOWN : forall p r a, In (Edge p r a) (aa_T s') -> (ht r < ht p < B) \/ ht r = B).
    { intros p r a J. apply (q_T _ _ _ _ _ Q) in J. destruct J as (_ & r0 & J & <-). rewrite (q_ht _ _ _ _ _ Q). apply (nc_down _ _ _ _ I _ _ _ J). }
    assert (NEXT : forall p n, In p (aa_V s') -> ht p = S n -> ht p < B -> exists r a, In (Edge p r a) (aa_T s') /\ ht r = n).
    { intros p n J Hp LB. destruct (VV p J) as [J1 J2]. destruct (nc_next _ _ _ _ I p n J1 Hp LB) as (r & a & T & Hr). exists (phi r), a. rewrite (q_ht _ _ _ _ _ Q). split; [|exact Hr]. apply (q_T _ _ _ _ _ Q). split; [exact J2|]. exists r. auto. }
    assert (LEAF : forall p r a, In (Edge p r a) (aa_T s') -> ht p < B -> ht p <> 0).
    { intros p r a J. apply (q_T _ _ _ _ _ Q) in J. destruct J as (_ & r0 & J & <-). apply (nc_leaf _ _ _ _ I _ _ _ J). }
    assert (LOOP : forall p, In p (aa_V s') -> ht p = B -> exists r a, In (Edge p r a) (aa_T s')).
    { intros p J Hp. destruct (VV p J) as [J1 J2]. destruct (nc_loop _ _ _ _ I p J1 Hp) as (r & a & T). exists (phi r), a. apply (q_T _ _ _ _ _ Q). split; [exact J2|]. exists r. auto. }
    split.
    - lia.
    - rewrite (q_q0 _ _ _ _ _ Q). apply (nc_q0 _ _ _ _ I).
    - rewrite (q_final _ _ _ _ _ Q). apply (nc_final _ _ _ _ I).
    - intros v J. apply (nc_V _ _ _ _ I), VV, J.
    - intros v J. destruct (VV v J) as [J1 J2]. apply (ends_trans ht B _ s _ _ v); [apply (nc_same _ _ _ _ I v J1)|]. rewrite <- J2 at 2. apply SE.
    - exact DOWN.
    - exact NEXT.
    - exact LEAF.
    - exact LOOP.
    - intros p Hp. destruct (nc_frozen _ _ _ _ I p Hp) as [F1 F2]. split.
      + intros V0. rewrite <- (DEAD p Hp). apply VP, F1, V0.
      + intros r a. rewrite <- F2, (q_T _ _ _ _ _ Q). split.
        * intros (_ & r0 & T & Er). destruct (nc_down _ _ _ _ I _ _ _ T) as [?|Hr]; [lia|]. rewrite (DEAD r0 Hr) in Er. subst r0. exact T.
        * intros T. split; [apply DEAD, Hp|]. exists r. split; [exact T|]. destruct (nc_down _ _ _ _ I _ _ _ T) as [?|Hr]; [lia|]. apply DEAD, Hr.
    - split; [apply NoDup_sof|]. intros v. rewrite In_sof, filter_In, Nat.eqb_eq, in_flat_map. split.
      + intros [(q & J1 & J2) Hv]. apply in_map_iff in J2. destruct J2 as ([p r a] & <- & J2). apply (In_obs_nin sym _ _ _ _ R') in J2. cbn [target source] in *. destruct J2 as [-> J2]. apply TI in J1. destruct (DOWN _ _ _ J2) as [LP|]; [|lia].
        rewrite HH in Hv by lia. split; [apply (narep_closed sym _ _ R' _ _ _ J2)|]. split; [exact Hv|lia].
      + intros (J & Hv & LB). split; [|rewrite HH; lia]. destruct (NEXT v h J Hv ltac:(lia)) as (r & a & T & Hr). exists r. split.
        * apply TI. split; [apply VV, (narep_closed sym _ _ R' _ _ _ T)|]. split; [exact Hr|exact HLT].
        * apply in_map_iff. exists (Edge v r a). split; [reflexivity|]. apply (In_obs_nin sym _ _ _ _ R'). auto.
    - intros x y Jx Jy Lx [SY SG].
      assert (Hxy : ht y = ht x) by (apply (sig_live ht B s' DOWN NEXT LEAF LOOP (fun p _ => HB p) x y Jx Jy); [lia|exact SG]).
      destruct (VV x Jx) as [Vx Fx], (VV y Jy) as [Vy Fy].
      assert (LOW : forall v, ht v <= h -> phi v = v -> forall a r, In (Edge v r a) (aa_T s') <-> In (Edge v r a) (aa_T s)).
      { intros v Lv Fv a r. rewrite (q_T _ _ _ _ _ Q). split.
        - intros (_ & r0 & T & Er). pose proof (nc_down _ _ _ _ I _ _ _ T) as D. rewrite (q_level _ _ _ _ _ Q) in Er by lia. subst r0. exact T.
        - intros T. split; [exact Fv|]. exists r. split; [exact T|]. pose proof (nc_down _ _ _ _ I _ _ _ T) as D. apply (q_level _ _ _ _ _ Q). lia. }
      assert (SG0 : nsigeq sym s x y).
      { split; [exact SY|]. destruct SG as [S1 S2]. split; [rewrite <- (q_final _ _ _ _ _ Q); exact S1|]. intros a r. rewrite <- (LOW x), <- (LOW y) by (lia || assumption). apply S2. }
      destruct (Nat.eq_dec (ht x) h) as [Hx|Nx]; [|apply (nc_uniq _ _ _ _ I x y); auto; lia].
      rewrite <- Fx, <- Fy. apply U; [| |exact SG0]; apply (Permutation_in _ (Permutation_sym PL)), TI; repeat split; auto; lia.
    - assert (BACK : forall v, In v (aa_V s) -> same_ends ht B s s (phi v) v).
      { intros v Vv. apply (ends_trans ht B _ s' _ _ (phi v)); [|apply ends_sym, SE]. rewrite <- (q_idem _ _ _ _ _ Q v) at 2. apply SE. }
      intros v V0 NV. destruct (in_dec Nat.eq_dec v (aa_V s)) as [Vv|NVv].
      + exists (phi v). split; [apply VP, Vv|]. split; [|split; [apply QS|]].
        * pose proof (q_le _ _ _ _ _ Q v). assert (phi v <> v) by (intros F; apply NV; rewrite <- F; apply VP, Vv). split; [lia|apply (q_ht _ _ _ _ _ Q)].
        * apply (ends_trans ht B _ s _ _ (phi v)); [apply (nc_same _ _ _ _ I), (q_in _ _ _ _ _ Q), Vv|]. apply (ends_trans ht B _ s _ _ v); [apply BACK, Vv|apply ends_sym, (nc_same _ _ _ _ I v Vv)].
      + destruct (nc_removed _ _ _ _ I v V0 NVv) as (q & Vq & [Lq Hq] & Yq & Sq). exists (phi q). split; [apply VP, Vq|]. split; [pose proof (q_le _ _ _ _ _ Q q); rewrite (q_ht _ _ _ _ _ Q); split; [lia|exact Hq]|]. split; [rewrite QS; exact Yq|].
        apply (ends_trans ht B _ s0 _ _ q); [|exact Sq]. apply (ends_trans ht B _ s _ _ (phi q)); [apply (nc_same _ _ _ _ I), (q_in _ _ _ _ _ Q), Vq|]. apply (ends_trans ht B _ s _ _ q); [apply BACK, Vq|apply ends_sym, (nc_same _ _ _ _ I q Vq)].
  Qed.

  Lemma nclevel_empty s0 h s : ncinv s0 h [] s -> (forall p r a, In (Edge p r a) (aa_T s) -> In r (aa_V s)) -> forall v, In v (aa_V s) -> ht v < B -> ht v < h.
  Proof.
    intros I CL. assert (K : forall n v, In v (aa_V s) -> ht v = n + h -> ht v < B -> False).
    { induction n as [|n IH]; intros v Vv Hv LB; [destruct (nc_todo _ _ _ _ I) as [_ T]; apply (T v); repeat split; [exact Vv|exact Hv|lia]|]. destruct (nc_next _ _ _ _ I v (n + h) Vv Hv LB) as (r & a & J & Hr). apply (IH r (CL _ _ _ J) Hr). lia. }
    intros v Vv LB. destruct (Nat.lt_ge_cases (ht v) h) as [L|G]; [exact L|]. exfalso. apply (K (ht v - h) v Vv); lia.
  Qed.

  Lemma ncminimize_loop ord ord_v s0 : valid_order ord -> valid_order ord_v -> forall fuel h todo (g : naut A) s, narep sym g s -> ncinv s0 h todo s -> B <= h + fuel ->
    exists g' s' h', nminimize_loop fuel ord ord_v heights h todo g = Some (g', Ok (Z.of_nat h' - 1)%Z) /\ narep sym g' s' /\ ncinv s0 h' [] s' /\ h <= h' /\ forall n, h <= n < h' -> exists v, In v (aa_V s0) /\ ht v = n.
  Proof.
    intros OE OV. induction fuel as [|fuel IH]; intros h todo g s R I F.
    - destruct todo as [|x todo]; cbn [nminimize_loop]; [exists g, s, h; split; [reflexivity|split; [exact R|split; [exact I|split; [lia|intros; lia]]]]|].
      exfalso. destruct (proj1 (proj2 (nc_todo _ _ _ _ I) x) (or_introl eq_refl)) as (_ & _ & L). lia.
    - destruct todo as [|x todo]; cbn [nminimize_loop]; [exists g, s, h; split; [reflexivity|split; [exact R|split; [exact I|split; [lia|intros; lia]]]]|].
      destruct (proj1 (proj2 (nc_todo _ _ _ _ I) x) (or_introl eq_refl)) as (V1 & H1 & LB).
      destruct (ncinv_step ord s0 h (x :: todo) (ord_v fuel (x :: todo)) s g OE R I LB (OV _ _)) as (m & g' & s' & -> & -> & R' & I').
      destruct (IH _ _ g' s' R' I' ltac:(lia)) as (g2 & s2 & h2 & E & R2 & I2 & L2 & K2). exists g2, s2, h2. split; [exact E|]. split; [exact R2|]. split; [exact I2|]. split; [lia|].
      intros n Hn. destruct (Nat.eq_dec n h) as [->|]; [|apply K2; lia]. exists x. split; [apply (nc_V _ _ _ _ I), V1|exact H1].
  Qed.
End M.
