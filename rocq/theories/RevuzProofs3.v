(** Lemmas on revuz_minimize: languages, and the loop. *)
From Coq Require Import ZArith.
From Verif Require Import Graph GraphProofs Automaton AutomatonSpec AutomatonProofs AutomatonProofs2 Heap Revuz RevuzSpec RevuzProofs RevuzProofs2 Base BaseProofs.

Section M.
  Context {A : Type} {EA : EqDec A}.
  Notation aaut := (aaut A).

  Section Quo.
    Variables (ht : nat -> nat) (h : nat) (phi : nat -> nat) (s s' : aaut).
    Hypothesis Q : quo ht h phi s s'.
    Lemma quo_path w : forall q r, path (aa_T s) q w r -> path (aa_T s') (phi q) w (phi r).
    Proof.
      intros q r P. induction P as [q|q a x w t I P IH]; [constructor|]. econstructor; [|exact IH]. apply (q_T _ _ _ _ _ Q). split; [apply (q_idem _ _ _ _ _ Q)|]. exists x. split; [|reflexivity]. apply (q_sig _ _ _ _ _ Q q), I.
    Qed.
    Lemma quo_path_inv w : forall p t, path (aa_T s') p w t -> forall q, phi q = p -> exists r, path (aa_T s) q w r /\ phi r = t.
    Proof.
      intros p t P. induction P as [p|p a x w t I P IH]; intros q E; [exists q; split; [constructor|exact E]|].
      apply (q_T _ _ _ _ _ Q) in I. destruct I as (F & x0 & I & E0). destruct (IH x0 E0) as (r & P' & E'). exists r. split; [|exact E']. econstructor; [|exact P']. subst p. apply (q_sig _ _ _ _ _ Q q), I.
    Qed.
    Lemma quo_right q w : right (aa_T s') (aa_final s') (phi q) w <-> right (aa_T s) (aa_final s) q w.
    Proof.
      rewrite (q_final _ _ _ _ _ Q). split.
      - intros (t & P & F). destruct (quo_path_inv _ _ _ P q eq_refl) as (r & P' & <-). exists r. split; [exact P'|]. rewrite <- F. symmetry. apply (q_sig _ _ _ _ _ Q r).
      - intros (r & P & F). exists (phi r). split; [apply quo_path, P|]. rewrite <- F. apply (q_sig _ _ _ _ _ Q r).
    Qed.
    Lemma quo_readable q w : readable (aa_T s') (phi q) w <-> readable (aa_T s) q w.
    Proof.
      split.
      - intros (t & P). destruct (quo_path_inv _ _ _ P q eq_refl) as (r & P' & _). exists r. exact P'.
      - intros (r & P). exists (phi r). apply quo_path, P.
    Qed.
  End Quo.

  (** Equality of the accepted and of the readable words *)
  Definition same_words (s s' : aaut) (x y : nat) : Prop :=
    forall w, (right (aa_T s) (aa_final s) x w <-> right (aa_T s') (aa_final s') y w) /\ (readable (aa_T s) x w <-> readable (aa_T s') y w).
  Lemma same_refl s x : same_words s s x x. Proof. intros w. tauto. Qed.
  Lemma same_sym s s' x y : same_words s s' x y -> same_words s' s y x. Proof. intros H w. destruct (H w). tauto. Qed.
  Lemma same_trans s s' s'' x y z : same_words s s' x y -> same_words s' s'' y z -> same_words s s'' x z.
  Proof. intros H K w. destruct (H w), (K w). tauto. Qed.
  Lemma quo_same ht h phi s s' q : quo ht h phi s s' -> same_words s s' q (phi q).
  Proof. intros Q w. split; symmetry; [apply (quo_right _ _ _ _ _ Q)|apply (quo_readable _ _ _ _ _ Q)]. Qed.

  Variable ht : nat -> nat.
  Record inv (s0 : aaut) (h : nat) (todo : list nat) (s : aaut) : Prop := {
    i_q0 : aa_q0 s = aa_q0 s0;
    i_final : aa_final s = aa_final s0;
    i_V : forall v, In v (aa_V s) -> In v (aa_V s0);
    i_same : forall v, In v (aa_V s) -> same_words s0 s v v;
    i_down : forall p r a, In (Edge p r a) (aa_T s) -> ht r < ht p;
    i_next : forall p n, In p (aa_V s) -> ht p = S n -> exists r a, In (Edge p r a) (aa_T s) /\ ht r = n;
    i_todo : NoDup todo /\ forall v, In v todo <-> In v (aa_V s) /\ ht v = h;
    i_uniq : forall x y, In x (aa_V s) -> In y (aa_V s) -> ht x < h -> sigeq s x y -> x = y;
    i_removed : forall v, In v (aa_V s0) -> ~ In v (aa_V s) -> exists q, In q (aa_V s) /\ (q < v /\ ht q = ht v) /\ same_words s0 s0 q v }.

  Lemma sig_ht s0 h todo s x y : inv s0 h todo s -> In x (aa_V s) -> In y (aa_V s) -> sigeq s x y -> ht x = ht y.
  Proof.
    intros I. assert (LE : forall x y, In x (aa_V s) -> In y (aa_V s) -> sigeq s x y -> ht x <= ht y).
    { clear x y. intros x y Vx Vy [_ SG]. destruct (ht x) as [|n] eqn:E; [lia|]. destruct (i_next _ _ _ _ I x n Vx E) as (r & a & T & <-). apply SG in T. apply (i_down _ _ _ _ I) in T. lia. }
    intros Vx Vy SG. pose proof (LE x y Vx Vy SG). pose proof (LE y x Vy Vx (sigeq_sym _ _ _ SG)). lia.
  Qed.
  Lemma inv_step ord s0 h todo l s (g : iaut A) : valid_order ord -> iarep g s -> inv s0 h todo s -> Permutation l todo ->
    exists g' s', foreach (merge_group ord) g (aggregates g l) = (g', Ok tt) /\ iarep g' s' /\
      inv s0 (S h) (sof (filter (fun p => ht p =? S h) (flat_map (fun q => map source (IA_in_edges g' q)) todo))) s' /\ length (aa_V s') <= length (aa_V s).
  Proof.
    intros OV R I PL. destruct (i_todo _ _ _ _ I) as [TN TI].
    destruct (level_merge ht ord h s g l OV R) as (g' & s' & phi & E & R' & Q & U).
    { apply (Permutation_NoDup (Permutation_sym PL)), TN. }
    { intros v. rewrite <- TI. split; apply Permutation_in; [exact PL|symmetry; exact PL]. }
    exists g', s'. split; [exact E|]. split; [exact R'|].
    assert (VV : forall v, In v (aa_V s') -> In v (aa_V s) /\ phi v = v) by (intros v; apply (q_V _ _ _ _ _ Q)).
    assert (VP : forall v, In v (aa_V s) -> In (phi v) (aa_V s')) by (intros v J; apply (q_V _ _ _ _ _ Q); split; [apply (q_in _ _ _ _ _ Q), J|apply (q_idem _ _ _ _ _ Q)]).
    assert (DOWN : forall p r a, In (Edge p r a) (aa_T s') -> ht r < ht p).
    { intros p r a J. apply (q_T _ _ _ _ _ Q) in J. destruct J as (_ & r0 & J & <-). rewrite (q_ht _ _ _ _ _ Q). apply (i_down _ _ _ _ I _ _ _ J). }
    assert (NEXT : forall p n, In p (aa_V s') -> ht p = S n -> exists r a, In (Edge p r a) (aa_T s') /\ ht r = n).
    { intros p n J Hp. destruct (VV p J) as [J1 J2]. destruct (i_next _ _ _ _ I p n J1 Hp) as (r & a & T & Hr). exists (phi r), a. rewrite (q_ht _ _ _ _ _ Q). split; [|exact Hr]. apply (q_T _ _ _ _ _ Q). split; [exact J2|]. exists r. auto. }
    split; [split|].
    - rewrite (q_q0 _ _ _ _ _ Q). apply (i_q0 _ _ _ _ I).
    - rewrite (q_final _ _ _ _ _ Q). apply (i_final _ _ _ _ I).
    - intros v J. apply (i_V _ _ _ _ I), VV, J.
    - intros v J. destruct (VV v J) as [J1 J2]. apply (same_trans _ s _ _ v); [apply (i_same _ _ _ _ I v J1)|]. rewrite <- J2 at 2. apply (quo_same _ _ _ _ _ _ Q).
    - exact DOWN.
    - exact NEXT.
    - split; [apply NoDup_sof|]. intros v. rewrite In_sof, filter_In, Nat.eqb_eq, in_flat_map. split.
      + intros [(q & J1 & J2) Hv]. apply in_map_iff in J2. destruct J2 as ([p r a] & <- & J2). apply (In_obs_in _ _ _ _ R') in J2. split; [apply (iarep_closed _ _ R' _ _ _ (proj2 J2))|exact Hv].
      + intros [J Hv]. split; [|exact Hv]. destruct (NEXT v h J Hv) as (r & a & T & Hr). exists r. split.
        * apply TI. split; [apply VV, (iarep_closed _ _ R' _ _ _ T)|exact Hr].
        * apply in_map_iff. exists (Edge v r a). split; [reflexivity|]. apply (In_obs_in _ _ _ _ R'). auto.
    - intros x y Jx Jy Lx SG.
      assert (Hxy : ht x = ht y).
      { assert (LE : forall x y, In x (aa_V s') -> sigeq s' x y -> ht x <= ht y).
        { clear - NEXT DOWN. intros x y Vx [_ SG]. destruct (ht x) as [|n] eqn:E; [lia|]. destruct (NEXT x n Vx E) as (r & a & T & <-). apply SG, DOWN in T. lia. }
        pose proof (LE x y Jx SG). pose proof (LE y x Jy (sigeq_sym _ _ _ SG)). lia. }
      destruct (VV x Jx) as [Vx Fx], (VV y Jy) as [Vy Fy].
      assert (LOW : forall v, ht v <= h -> phi v = v -> forall a r, In (Edge v r a) (aa_T s') <-> In (Edge v r a) (aa_T s)).
      { intros v Lv Fv a r. rewrite (q_T _ _ _ _ _ Q). split.
        - intros (_ & r0 & T & Er). pose proof (i_down _ _ _ _ I _ _ _ T) as D. rewrite (q_level _ _ _ _ _ Q) in Er by lia. subst r0. exact T.
        - intros T. split; [exact Fv|]. exists r. split; [exact T|]. pose proof (i_down _ _ _ _ I _ _ _ T) as D. apply (q_level _ _ _ _ _ Q). lia. }
      assert (SG0 : sigeq s x y).
      { destruct SG as [S1 S2]. split; [rewrite <- (q_final _ _ _ _ _ Q); exact S1|]. intros a r. rewrite <- (LOW x), <- (LOW y) by (lia || assumption). apply S2. }
      destruct (Nat.eq_dec (ht x) h) as [Hx|Nx]; [|apply (i_uniq _ _ _ _ I x y); auto; lia].
      rewrite <- Fx, <- Fy. apply U; [| |exact SG0]; apply (Permutation_in _ (Permutation_sym PL)), TI; split; auto; lia.
    - intros v V0 NV. destruct (in_dec Nat.eq_dec v (aa_V s)) as [Vv|NVv].
      + exists (phi v). split; [apply VP, Vv|]. split.
        * pose proof (q_le _ _ _ _ _ Q v). assert (phi v <> v) by (intros F; apply NV; rewrite <- F; apply VP, Vv). split; [lia|apply (q_ht _ _ _ _ _ Q)].
        * apply (same_trans _ s _ _ (phi v)); [apply (i_same _ _ _ _ I), (q_in _ _ _ _ _ Q), Vv|]. apply (same_trans _ s _ _ v); [|apply same_sym, (i_same _ _ _ _ I v Vv)].
          apply (same_trans _ s' _ _ (phi v)); [|apply same_sym, (quo_same _ _ _ _ _ _ Q)]. rewrite <- (q_idem _ _ _ _ _ Q v) at 2. apply (quo_same _ _ _ _ _ _ Q).
      + destruct (i_removed _ _ _ _ I v V0 NVv) as (q & Vq & [Lq Hq] & Sq). exists (phi q). split; [apply VP, Vq|]. split; [pose proof (q_le _ _ _ _ _ Q q); rewrite (q_ht _ _ _ _ _ Q); split; [lia|exact Hq]|].
        apply (same_trans _ s0 _ _ q); [|exact Sq]. apply (same_trans _ s _ _ (phi q)); [apply (i_same _ _ _ _ I), (q_in _ _ _ _ _ Q), Vq|]. apply (same_trans _ s _ _ q); [|apply same_sym, (i_same _ _ _ _ I q Vq)].
        apply (same_trans _ s' _ _ (phi q)); [|apply same_sym, (quo_same _ _ _ _ _ _ Q)]. rewrite <- (q_idem _ _ _ _ _ Q q) at 2. apply (quo_same _ _ _ _ _ _ Q).
    - apply NoDup_incl_length; [apply (iarep_nodup _ _ R')|]. intros v J. apply VV, J.
  Qed.

  (** States of every level are reached, so the loop ends once a level is empty *)
  Lemma level_empty s0 h s : inv s0 h [] s -> forall v, In v (aa_V s) -> (forall p r a, In (Edge p r a) (aa_T s) -> In r (aa_V s)) -> ht v < h.
  Proof.
    intros I v Vv CL. destruct (Nat.lt_ge_cases (ht v) h) as [L|G]; [exact L|]. exfalso. revert v Vv G. assert (K : forall n v, In v (aa_V s) -> ht v = n + h -> False).
    { induction n as [|n IH]; intros v Vv Hv; [destruct (i_todo _ _ _ _ I) as [_ T]; apply (T v); auto|]. destruct (i_next _ _ _ _ I v (n + h) Vv Hv) as (r & a & J & Hr). apply (IH r (CL _ _ _ J) Hr). }
    intros v Vv G. apply (K (ht v - h) v Vv). lia.
  Qed.
End M.

Section Loop.
  Context {A : Type} {EA : EqDec A}.
  Notation aaut := (aaut A).
  Variables (heights : dict nat nat).
  Let ht := height_of heights.
  (** [fuel]: more than the number of levels that remain *)
  Lemma minimize_loop_spec ord ord_v s0 N : valid_order ord -> valid_order ord_v -> (forall v, In v (aa_V s0) -> ht v < N) -> forall fuel h todo (g : iaut A) s, iarep g s -> inv ht s0 h todo s -> N <= h + fuel ->
    exists g' s' h', minimize_loop fuel ord ord_v heights h todo g = Some (g', Ok (Z.of_nat h' - 1)%Z) /\ iarep g' s' /\ inv ht s0 h' [] s' /\ h <= h' /\ forall n, h <= n < h' -> exists v, In v (aa_V s0) /\ ht v = n.
  Proof.
    intros OE OV BN. induction fuel as [|fuel IH]; intros h todo g s R I F.
    - destruct todo as [|x todo]; cbn [minimize_loop]; [exists g, s, h; split; [reflexivity|split; [exact R|split; [exact I|split; [lia|intros; lia]]]]|].
      exfalso. assert (J : In x (aa_V s) /\ ht x = h) by (apply (i_todo _ _ _ _ _ I); left; reflexivity). pose proof (BN x (i_V _ _ _ _ _ I x (proj1 J))). lia.
    - destruct todo as [|x todo]; cbn [minimize_loop]; [exists g, s, h; split; [reflexivity|split; [exact R|split; [exact I|split; [lia|intros; lia]]]]|].
      destruct (inv_step ht ord s0 h (x :: todo) (ord_v fuel (x :: todo)) s g OE R I (OV _ _)) as (g' & s' & -> & R' & I' & _).
      destruct (IH _ _ g' s' R' I' ltac:(lia)) as (g2 & s2 & h2 & E & R2 & I2 & L2 & K2). exists g2, s2, h2. split; [exact E|]. split; [exact R2|]. split; [exact I2|]. split; [lia|].
      intros n Hn. destruct (Nat.eq_dec n h) as [->|]; [|apply K2; lia]. exists x. destruct (proj1 (proj2 (i_todo _ _ _ _ _ I) x) (or_introl eq_refl)) as [V1 H1]. split; [apply (i_V _ _ _ _ _ I), V1|exact H1].
  Qed.
End Loop.
