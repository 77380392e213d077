(** Lemmas on revuz_minimize on automata with cycles: the invariant of the loop. *)
From Coq Require Import ZArith.
From Verif Require Import Graph GraphProofs Automaton AutomatonSpec AutomatonProofs AutomatonProofs2 Heap Revuz RevuzSpec RevuzProofs RevuzProofs2 RevuzProofs3 RevuzCycleSpec Base BaseProofs.

(** [ht]: the height of the states that lead to a leaf, and B, greater than any height, for the other ones. *)
Section M.
  Context {A : Type} {EA : EqDec A}.
  Notation aaut := (aaut A).
  Variables (ht : nat -> nat) (B : nat).

  Definition same_ends (s s' : aaut) (x y : nat) : Prop :=
    same_words s s' x y /\ forall z, ht z = B -> forall w, path (aa_T s) x w z <-> path (aa_T s') y w z.
  Lemma ends_refl s x : same_ends s s x x. Proof. split; [apply same_refl|tauto]. Qed.
  Lemma ends_sym s s' x y : same_ends s s' x y -> same_ends s' s y x. Proof. intros [H1 H2]. split; [apply same_sym, H1|]. intros z Hz w. symmetry. apply (H2 z Hz w). Qed.
  Lemma ends_trans s s' s'' x y z : same_ends s s' x y -> same_ends s' s'' y z -> same_ends s s'' x z.
  Proof. intros [H1 H2] [K1 K2]. split; [apply (same_trans _ _ _ _ _ _ H1 K1)|]. intros t Ht w. rewrite (H2 t Ht w). apply (K2 t Ht w). Qed.
  Lemma quo_ends h phi s s' q : h < B -> quo ht h phi s s' -> same_ends s s' q (phi q).
  Proof.
    intros L Q. split; [apply (quo_same _ _ _ _ _ _ Q)|]. intros z Hz w. assert (Fz : phi z = z) by (apply (q_level _ _ _ _ _ Q); lia). split.
    - intros P. rewrite <- Fz. apply (quo_path _ _ _ _ _ Q), P.
    - intros P. destruct (quo_path_inv _ _ _ _ _ Q _ _ _ P q eq_refl) as (r & P' & E). assert (r = z) as <-; [|exact P']. rewrite <- E. symmetry. apply (q_level _ _ _ _ _ Q). rewrite <- (q_ht _ _ _ _ _ Q r), E. lia.
  Qed.

  Record cinv (s0 : aaut) (h : nat) (todo : list nat) (s : aaut) : Prop := {
    c_h : h <= B;
    c_q0 : aa_q0 s = aa_q0 s0;
    c_final : aa_final s = aa_final s0;
    c_V : forall v, In v (aa_V s) -> In v (aa_V s0);
    c_same : forall v, In v (aa_V s) -> same_ends s0 s v v;
    c_down : forall p r a, In (Edge p r a) (aa_T s) -> (ht r < ht p < B) \/ ht r = B;
    c_next : forall p n, In p (aa_V s) -> ht p = S n -> ht p < B -> exists r a, In (Edge p r a) (aa_T s) /\ ht r = n;
    c_leaf : forall p r a, In (Edge p r a) (aa_T s) -> ht p < B -> ht p <> 0;
    c_loop : forall p, In p (aa_V s) -> ht p = B -> exists r a, In (Edge p r a) (aa_T s);
    c_frozen : forall p, ht p = B -> (In p (aa_V s0) -> In p (aa_V s)) /\ forall r a, In (Edge p r a) (aa_T s) <-> In (Edge p r a) (aa_T s0);
    c_todo : NoDup todo /\ forall v, In v todo <-> In v (aa_V s) /\ ht v = h /\ h < B;
    c_uniq : forall x y, In x (aa_V s) -> In y (aa_V s) -> ht x < h -> sigeq s x y -> x = y;
    c_removed : forall v, In v (aa_V s0) -> ~ In v (aa_V s) -> exists q, In q (aa_V s) /\ (q < v /\ ht q = ht v) /\ same_ends s0 s0 q v }.

  Lemma sig_live (s : aaut) : 
    (forall p r a, In (Edge p r a) (aa_T s) -> (ht r < ht p < B) \/ ht r = B) -> (forall p n, In p (aa_V s) -> ht p = S n -> ht p < B -> exists r a, In (Edge p r a) (aa_T s) /\ ht r = n) ->
    (forall p r a, In (Edge p r a) (aa_T s) -> ht p < B -> ht p <> 0) -> (forall p, In p (aa_V s) -> ht p = B -> exists r a, In (Edge p r a) (aa_T s)) -> (forall p, In p (aa_V s) -> ht p <= B) ->
    forall x y, In x (aa_V s) -> In y (aa_V s) -> ht x < B -> sigeq s x y -> ht y = ht x.
  Proof.
    intros DOWN NEXT LEAF LOOP LB. assert (LE : forall x y, In x (aa_V s) -> In y (aa_V s) -> ht x < B -> sigeq s x y -> ht y < B /\ ht x <= ht y).
    { intros x y Vx Vy Lx [_ SG]. destruct (ht x) as [|n] eqn:E.
      - split; [|lia]. pose proof (LB y Vy). destruct (Nat.eq_dec (ht y) B) as [EB|]; [|lia]. destruct (LOOP y Vy EB) as (r & a & J). apply SG in J. destruct (LEAF _ _ _ J); lia.
      - destruct (NEXT x n Vx E ltac:(lia)) as (r & a & J & Hr). apply SG, DOWN in J. lia. }
    intros x y Vx Vy Lx SG. destruct (LE x y Vx Vy Lx SG) as [L1 L2]. destruct (LE y x Vy Vx L1 (sigeq_sym _ _ _ SG)). lia.
  Qed.

  Variable heights : dict nat nat.
  Hypothesis HH : forall v, ht v < B -> height_of heights v = ht v.
  Hypothesis HB : forall v, ht v <= B.

  Lemma cinv_step ord s0 h todo l s (g : iaut A) : valid_order ord -> iarep g s -> cinv s0 h todo s -> h < B -> Permutation l todo ->
    exists g' s', foreach (merge_group ord) g (aggregates g l) = (g', Ok tt) /\ iarep g' s' /\
      cinv s0 (S h) (sof (filter (fun p => height_of heights p =? S h) (flat_map (fun q => map source (IA_in_edges g' q)) todo))) s'.
  Proof.
    intros OV R I HLT PL. destruct (c_todo _ _ _ _ I) as [TN TI].
    destruct (level_merge ht ord h s g l OV R) as (g' & s' & phi & E & R' & Q & U).
    { apply (Permutation_NoDup (Permutation_sym PL)), TN. }
    { intros v. transitivity (In v todo); [split; apply Permutation_in; [exact PL|symmetry; exact PL]|]. rewrite TI. tauto. }
    exists g', s'. split; [exact E|]. split; [exact R'|].
    assert (VV : forall v, In v (aa_V s') -> In v (aa_V s) /\ phi v = v) by (intros v; apply (q_V _ _ _ _ _ Q)).
    assert (VP : forall v, In v (aa_V s) -> In (phi v) (aa_V s')) by (intros v J; apply (q_V _ _ _ _ _ Q); split; [apply (q_in _ _ _ _ _ Q), J|apply (q_idem _ _ _ _ _ Q)]).
    assert (DEAD : forall v, ht v = B -> phi v = v) by (intros v Hv; apply (q_level _ _ _ _ _ Q); lia).
    assert (SE : forall v, same_ends s s' v (phi v)) by (intros v; apply (quo_ends h phi s s' v HLT Q)).
    assert (DOWN : forall p r a, In (Edge p r a) (aa_T s') -> (ht r < ht p < B) \/ ht r = B).
    { intros p r a J. apply (q_T _ _ _ _ _ Q) in J. destruct J as (_ & r0 & J & <-). rewrite (q_ht _ _ _ _ _ Q). apply (c_down _ _ _ _ I _ _ _ J). }
    assert (NEXT : forall p n, In p (aa_V s') -> ht p = S n -> ht p < B -> exists r a, In (Edge p r a) (aa_T s') /\ ht r = n).
    { intros p n J Hp LB. destruct (VV p J) as [J1 J2]. destruct (c_next _ _ _ _ I p n J1 Hp LB) as (r & a & T & Hr). exists (phi r), a. rewrite (q_ht _ _ _ _ _ Q). split; [|exact Hr]. apply (q_T _ _ _ _ _ Q). split; [exact J2|]. exists r. auto. }
    assert (LEAF : forall p r a, In (Edge p r a) (aa_T s') -> ht p < B -> ht p <> 0).
    { intros p r a J. apply (q_T _ _ _ _ _ Q) in J. destruct J as (_ & r0 & J & <-). apply (c_leaf _ _ _ _ I _ _ _ J). }
    assert (LOOP : forall p, In p (aa_V s') -> ht p = B -> exists r a, In (Edge p r a) (aa_T s')).
    { intros p J Hp. destruct (VV p J) as [J1 J2]. destruct (c_loop _ _ _ _ I p J1 Hp) as (r & a & T). exists (phi r), a. apply (q_T _ _ _ _ _ Q). split; [exact J2|]. exists r. auto. }
    split.
    - lia.
    - rewrite (q_q0 _ _ _ _ _ Q). apply (c_q0 _ _ _ _ I).
    - rewrite (q_final _ _ _ _ _ Q). apply (c_final _ _ _ _ I).
    - intros v J. apply (c_V _ _ _ _ I), VV, J.
    - intros v J. destruct (VV v J) as [J1 J2]. apply (ends_trans _ s _ _ v); [apply (c_same _ _ _ _ I v J1)|]. rewrite <- J2 at 2. apply SE.
    - exact DOWN.
    - exact NEXT.
    - exact LEAF.
    - exact LOOP.
    - intros p Hp. destruct (c_frozen _ _ _ _ I p Hp) as [F1 F2]. split.
      + intros V0. rewrite <- (DEAD p Hp). apply VP, F1, V0.
      + intros r a. rewrite <- F2, (q_T _ _ _ _ _ Q). split.
        * intros (_ & r0 & T & Er). destruct (c_down _ _ _ _ I _ _ _ T) as [?|Hr]; [lia|]. rewrite (DEAD r0 Hr) in Er. subst r0. exact T.
        * intros T. split; [apply DEAD, Hp|]. exists r. split; [exact T|]. destruct (c_down _ _ _ _ I _ _ _ T) as [?|Hr]; [lia|]. apply DEAD, Hr.
    - split; [apply NoDup_sof|]. intros v. rewrite In_sof, filter_In, Nat.eqb_eq, in_flat_map. split.
      + intros [(q & J1 & J2) Hv]. apply in_map_iff in J2. destruct J2 as ([p r a] & <- & J2). apply (In_obs_in _ _ _ _ R') in J2. cbn [target source] in *. destruct J2 as [-> J2]. apply TI in J1. destruct (DOWN _ _ _ J2) as [LP|]; [|lia].
        rewrite HH in Hv by lia. split; [apply (iarep_closed _ _ R' _ _ _ J2)|]. split; [exact Hv|lia].
      + intros (J & Hv & LB). split; [|rewrite HH; lia]. destruct (NEXT v h J Hv ltac:(lia)) as (r & a & T & Hr). exists r. split.
        * apply TI. split; [apply VV, (iarep_closed _ _ R' _ _ _ T)|]. split; [exact Hr|exact HLT].
        * apply in_map_iff. exists (Edge v r a). split; [reflexivity|]. apply (In_obs_in _ _ _ _ R'). auto.
    - intros x y Jx Jy Lx SG.
      assert (Hxy : ht y = ht x) by (apply (sig_live s' DOWN NEXT LEAF LOOP (fun p _ => HB p) x y Jx Jy); [lia|exact SG]).
      destruct (VV x Jx) as [Vx Fx], (VV y Jy) as [Vy Fy].
      assert (LOW : forall v, ht v <= h -> phi v = v -> forall a r, In (Edge v r a) (aa_T s') <-> In (Edge v r a) (aa_T s)).
      { intros v Lv Fv a r. rewrite (q_T _ _ _ _ _ Q). split.
        - intros (_ & r0 & T & Er). pose proof (c_down _ _ _ _ I _ _ _ T) as D. rewrite (q_level _ _ _ _ _ Q) in Er by lia. subst r0. exact T.
        - intros T. split; [exact Fv|]. exists r. split; [exact T|]. pose proof (c_down _ _ _ _ I _ _ _ T) as D. apply (q_level _ _ _ _ _ Q). lia. }
      assert (SG0 : sigeq s x y).
      { destruct SG as [S1 S2]. split; [rewrite <- (q_final _ _ _ _ _ Q); exact S1|]. intros a r. rewrite <- (LOW x), <- (LOW y) by (lia || assumption). apply S2. }
      destruct (Nat.eq_dec (ht x) h) as [Hx|Nx]; [|apply (c_uniq _ _ _ _ I x y); auto; lia].
      rewrite <- Fx, <- Fy. apply U; [| |exact SG0]; apply (Permutation_in _ (Permutation_sym PL)), TI; repeat split; auto; lia.
    - assert (BACK : forall v, In v (aa_V s) -> same_ends s s (phi v) v).
      { intros v Vv. apply (ends_trans _ s' _ _ (phi v)); [|apply ends_sym, SE]. rewrite <- (q_idem _ _ _ _ _ Q v) at 2. apply SE. }
      intros v V0 NV. destruct (in_dec Nat.eq_dec v (aa_V s)) as [Vv|NVv].
      + exists (phi v). split; [apply VP, Vv|]. split.
        * pose proof (q_le _ _ _ _ _ Q v). assert (phi v <> v) by (intros F; apply NV; rewrite <- F; apply VP, Vv). split; [lia|apply (q_ht _ _ _ _ _ Q)].
        * apply (ends_trans _ s _ _ (phi v)); [apply (c_same _ _ _ _ I), (q_in _ _ _ _ _ Q), Vv|]. apply (ends_trans _ s _ _ v); [apply BACK, Vv|apply ends_sym, (c_same _ _ _ _ I v Vv)].
      + destruct (c_removed _ _ _ _ I v V0 NVv) as (q & Vq & [Lq Hq] & Sq). exists (phi q). split; [apply VP, Vq|]. split; [pose proof (q_le _ _ _ _ _ Q q); rewrite (q_ht _ _ _ _ _ Q); split; [lia|exact Hq]|].
        apply (ends_trans _ s0 _ _ q); [|exact Sq]. apply (ends_trans _ s _ _ (phi q)); [apply (c_same _ _ _ _ I), (q_in _ _ _ _ _ Q), Vq|]. apply (ends_trans _ s _ _ q); [apply BACK, Vq|apply ends_sym, (c_same _ _ _ _ I q Vq)].
  Qed.

  Lemma clevel_empty s0 h s : cinv s0 h [] s -> (forall p r a, In (Edge p r a) (aa_T s) -> In r (aa_V s)) -> forall v, In v (aa_V s) -> ht v < B -> ht v < h.
  Proof.
    intros I CL. assert (K : forall n v, In v (aa_V s) -> ht v = n + h -> ht v < B -> False).
    { induction n as [|n IH]; intros v Vv Hv LB; [destruct (c_todo _ _ _ _ I) as [_ T]; apply (T v); repeat split; [exact Vv|exact Hv|lia]|]. destruct (c_next _ _ _ _ I v (n + h) Vv Hv LB) as (r & a & J & Hr). apply (IH r (CL _ _ _ J) Hr). lia. }
    intros v Vv LB. destruct (Nat.lt_ge_cases (ht v) h) as [L|G]; [exact L|]. exfalso. apply (K (ht v - h) v Vv); lia.
  Qed.

  Lemma cminimize_loop ord ord_v s0 : valid_order ord -> valid_order ord_v -> forall fuel h todo (g : iaut A) s, iarep g s -> cinv s0 h todo s -> B <= h + fuel ->
    exists g' s' h', minimize_loop fuel ord ord_v heights h todo g = Some (g', Ok (Z.of_nat h' - 1)%Z) /\ iarep g' s' /\ cinv s0 h' [] s' /\ h <= h' /\ forall n, h <= n < h' -> exists v, In v (aa_V s0) /\ ht v = n.
  Proof.
    intros OE OV. induction fuel as [|fuel IH]; intros h todo g s R I F.
    - destruct todo as [|x todo]; cbn [minimize_loop]; [exists g, s, h; split; [reflexivity|split; [exact R|split; [exact I|split; [lia|intros; lia]]]]|].
      exfalso. destruct (proj1 (proj2 (c_todo _ _ _ _ I) x) (or_introl eq_refl)) as (_ & _ & L). lia.
    - destruct todo as [|x todo]; cbn [minimize_loop]; [exists g, s, h; split; [reflexivity|split; [exact R|split; [exact I|split; [lia|intros; lia]]]]|].
      destruct (proj1 (proj2 (c_todo _ _ _ _ I) x) (or_introl eq_refl)) as (V1 & H1 & LB).
      destruct (cinv_step ord s0 h (x :: todo) (ord_v fuel (x :: todo)) s g OE R I LB (OV _ _)) as (g' & s' & -> & R' & I').
      destruct (IH _ _ g' s' R' I' ltac:(lia)) as (g2 & s2 & h2 & E & R2 & I2 & L2 & K2). exists g2, s2, h2. split; [exact E|]. split; [exact R2|]. split; [exact I2|]. split; [lia|].
      intros n Hn. destruct (Nat.eq_dec n h) as [->|]; [|apply K2; lia]. exists x. split; [apply (c_V _ _ _ _ I), V1|exact H1].
  Qed.
End M.
