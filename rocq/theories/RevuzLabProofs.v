(** Lemmas on revuz_minimize with labels on the states. The proofs follow RevuzProofs2.v and RevuzProofs3.v. *)
From Coq Require Import ZArith.
From Verif Require Import Graph GraphProofs Automaton AutomatonSpec AutomatonProofs AutomatonProofs2 Heap Revuz RevuzSpec RevuzProofs RevuzProofs2 RevuzProofs3 RevuzLab RevuzLabSpec Base BaseProofs.

Lemma foreach_ext {S X} (f f' : S -> X -> S * res unit) l : (forall s x, f s x = f' s x) -> forall s, foreach f s l = foreach f' s l.
Proof. intros H. induction l as [|x l IH]; intros s; cbn [foreach]; [reflexivity|]. rewrite H. destruct (f' s x) as [s' [u|e]]; [apply IH|reflexivity]. Qed.

Section M.
  Context {A B : Type} {EA : EqDec A} {EB : EqDec B}.
  Notation aaut := (aaut A).
  Variables (pv : option (nat -> B)) (pe : option (edge A -> A)).
  (** the labels of the transitions are their symbols *)
  Hypothesis LAB : forall e, edge_label pe e = distinguisher e.
  Notation lab := (state_label pv).
  Notation sig := (make_lsignature pv pe).

  Lemma lmerge_eq ord q1 (g : iaut A) q2 : lmerge pe ord q1 g q2 = merge ord q1 g q2.
  Proof.
    unfold lmerge, merge. erewrite foreach_ext; [reflexivity|]. intros g0 e. unfold lmove_edge, move_edge. rewrite LAB. reflexivity.
  Qed.
  Lemma lmerge_group_eq ord (g : iaut A) (k : @lsignature A B) G k' : lmerge_group pe ord g (k, G) = merge_group ord g (k', G).
  Proof.
    unfold lmerge_group, merge_group. cbn [snd]. destruct (length G <? 2); [reflexivity|]. destruct (py_sorted Nat.ltb G) as [|q1 rest]; [reflexivity|]. apply foreach_ext. intros s x. apply lmerge_eq.
  Qed.
  (** the groups, with signatures of Revuz.v *)
  Definition sig0 : @signature A := (true, []).
  Definition plain (m : list (@lsignature A B * list nat)) : list (@signature A * list nat) := map (fun x => (sig0, snd x)) m.
  Lemma lmerge_groups_eq ord m : forall (g : iaut A), foreach (lmerge_group pe ord) g m = foreach (merge_group ord) g (plain m).
  Proof.
    induction m as [|[k G] m IH]; intros g; cbn [foreach plain map snd]; [reflexivity|]. rewrite (lmerge_group_eq ord g k G sig0). destruct (merge_group ord g (sig0, G)) as [g' [u|e]]; [apply IH|reflexivity].
  Qed.
  Lemma plain_snd m : map snd (plain m) = map snd m.
  Proof. unfold plain. rewrite map_map. reflexivity. Qed.

  Definition lsigeq (s : aaut) (x y : nat) : Prop := lab x = lab y /\ sigeq s x y.
  Variable ht : nat -> nat.
  Lemma lsig_eqb_spec (g : iaut A) s x y : iarep g s -> lsig_eqb (sig g x) (sig g y) = true <-> lsigeq s x y.
  Proof.
    intros R. assert (HF : forall q, A_is_final (ia_base g) q = aa_final s q) by apply R.
    assert (M : forall q a r, In (a, r) (snd (sig g q)) <-> In (Edge q r a) (aa_T s)).
    { intros q a r. unfold make_lsignature. cbn [snd]. rewrite In_sof, in_map_iff. split.
      - intros ([p t b] & E & I). rewrite LAB in E. injection E as <- <-. apply (In_obs_out _ _ _ _ R) in I. cbn in I. destruct I as [-> I]. exact I.
      - intros I. exists (Edge q r a). rewrite LAB. split; [reflexivity|]. apply (In_obs_out _ _ _ _ R). auto. }
    unfold lsig_eqb, lsigeq, sigeq. rewrite andb_true_iff, set_eqb_spec. unfold make_lsignature at 1 2. cbn [fst]. rewrite !HF. split.
    - intros [H1 H2]. apply (proj1 (eqb_eq _ _)) in H1. pose proof (f_equal fst H1) as H4. pose proof (f_equal snd H1) as H3. cbn [fst snd] in H3, H4. split; [exact H3|]. split; [exact H4|]. intros a r. rewrite <- !M. apply H2.
    - intros (H1 & H2 & H3). split; [apply (proj2 (eqb_eq _ _)); congruence|]. intros [a r]. rewrite !M. apply H3.
  Qed.
  Lemma lsig_eqb_sym (x y : @lsignature A B) : lsig_eqb x y = true -> lsig_eqb y x = true.
  Proof. unfold lsig_eqb. rewrite !andb_true_iff, !set_eqb_spec. intros [H1 H2]. split; [|intros a; symmetry; apply H2]. apply (proj1 (eqb_eq _ _)) in H1. rewrite H1. apply eqb_refl. Qed.
  Lemma lsig_eqb_trans (x y z : @lsignature A B) : lsig_eqb x y = true -> lsig_eqb y z = true -> lsig_eqb x z = true.
  Proof. unfold lsig_eqb. rewrite !andb_true_iff, !set_eqb_spec. intros [H1 H2] [H3 H4]. split; [|intros a; rewrite H2; apply H4]. apply (proj1 (eqb_eq _ _)) in H1. rewrite H1. exact H3. Qed.

  Definition lagg_ok (g : iaut A) (l : list nat) (m : list (lsignature * list nat)) : Prop :=
    (forall k G, In (k, G) m -> forall q, In q G -> lsig_eqb (sig g q) k = true) /\
    ForallOrdPairs (fun a b => lsig_eqb (fst b) (fst a) = false) m /\ Permutation (concat (map snd m)) l.
  Lemma lagg_add_ok (g : iaut A) m q : forall l, lagg_ok g l m -> ~ In q l -> lagg_ok g (q :: l) (lagg_add m (sig g q) q) /\
    forall k, In k (map fst (lagg_add m (sig g q) q)) -> In k (map fst m) \/ (k = sig g q).
  Proof.
    induction m as [|[k G] m IH]; intros l (H1 & H2 & H3) NI; cbn [lagg_add].
    - cbn in H3. split; [|cbn; intros ? [<-|[]]; auto]. split; [|split].
      + intros k G [[= <- <-]|[]] x [<-|[]]. apply andb_true_iff. split; [apply eqb_refl|apply set_eqb_spec; tauto].
      + repeat constructor.
      + cbn. rewrite <- H3. reflexivity.
    - inversion H2 as [|? ? H4 H5]; subst. cbn [map snd concat] in H3. assert (NG : ~ In q G) by (intros I; apply NI; apply (Permutation_in _ H3), in_or_app; auto).
      destruct (lsig_eqb (sig g q) k) eqn:E.
      + split; [|cbn; tauto]. split; [|split].
        * intros k' G' [[= <- <-]|I] x J; [|apply (H1 k' G' (or_intror I) x J)]. apply In_sadd in J. destruct J as [->|J]; [exact E|apply (H1 k G (or_introl eq_refl) x J)].
        * constructor; [|exact H5]. apply Forall_forall. intros b I. rewrite Forall_forall in H4. apply (H4 b I).
        * cbn [map snd concat]. unfold sadd. destruct (mem_reflect q G); [contradiction|]. rewrite <- H3. rewrite <- app_assoc. cbn. symmetry. apply Permutation_middle.
      + destruct (IH (concat (map snd m))) as [(K1 & K2 & K3) K4].
        * split; [intros k' G' I; apply (H1 k' G'); right; exact I|]. split; [exact H5|reflexivity].
        * intros I. apply NI, (Permutation_in _ H3), in_or_app. auto.
        * split; [split; [|split]|].
          -- intros k' G' [[= <- <-]|I]; [apply (H1 k G (or_introl eq_refl))|apply (K1 k' G' I)].
          -- constructor; [|exact K2]. apply Forall_forall. intros [k' G'] I. cbn. destruct (K4 k' (in_map fst _ _ I)) as [J| ->]; [|exact E]. apply in_map_iff in J. destruct J as ([k2 G2] & [= <-] & J). rewrite Forall_forall in H4. apply (H4 _ J).
          -- cbn [map snd concat]. rewrite K3, <- H3. symmetry. apply Permutation_middle.
          -- cbn [map]. intros k' [<-|I]; [left; left; reflexivity|]. destruct (K4 k' I); [left; right; assumption|auto].
  Qed.
  Lemma laggregates_ok (g : iaut A) l : NoDup l -> lagg_ok g (rev l) (laggregates pv pe g l).
  Proof.
    intros N. unfold laggregates. assert (G : forall l m acc, lagg_ok g acc m -> NoDup (rev l ++ acc) -> lagg_ok g (rev l ++ acc) (fold_left (fun m q => lagg_add m (sig g q) q) l m)).
    { clear l N. induction l as [|q l IH]; intros m acc H N; cbn; [exact H|]. cbn in N. rewrite <- app_assoc in *. cbn in *. apply IH; [|exact N]. apply lagg_add_ok; [exact H|]. apply NoDup_app_inv in N. destruct N as (_ & N & _). inversion N. assumption. }
    specialize (G l [] []). rewrite app_nil_r in G. apply G; [split; [intros ? ? []|split; [constructor|reflexivity]]|]. apply (Permutation_NoDup (Permutation_rev l)), N.
  Qed.

  Lemma llevel_merge ord h s (g : iaut A) l : valid_order ord -> iarep g s -> NoDup l -> (forall v, In v l <-> In v (aa_V s) /\ ht v = h) ->
    exists g' s' phi, foreach (lmerge_group pe ord) g (laggregates pv pe g l) = (g', Ok tt) /\ iarep g' s' /\ quo ht h phi s s' /\ (forall v, lab (phi v) = lab v) /\
      forall x y, In x l -> In y l -> lsigeq s x y -> phi x = phi y.
  Proof.
    intros OV R N H. destruct (laggregates_ok g l N) as (A1 & A2 & A3). pose proof (Permutation_trans A3 (Permutation_sym (Permutation_rev l))) as A4. rewrite lmerge_groups_eq. set (m := laggregates pv pe g l) in *.
    assert (IN : forall k G x, In (k, G) m -> In x G -> In x l).
    { intros k G x I J. apply (Permutation_in _ A4), in_concat. exists G. split; [apply in_map_iff; exists (k, G); auto|exact J]. }
    assert (SG : forall k G x y, In (k, G) m -> In x G -> In y G -> lsigeq s x y).
    { intros k G x y I J1 J2. apply (lsig_eqb_spec g s x y R). apply (lsig_eqb_trans _ k); [apply (A1 k G I x J1)|apply lsig_eqb_sym, (A1 k G I y J2)]. }
    assert (PL : forall k G, In (k, G) (plain m) -> exists k', In (k', G) m).
    { intros k G I. apply in_map_iff in I. destruct I as ([k' G'] & [= _ <-] & I). eauto. }
    assert (LP : forall k G, In (k, G) m -> In (sig0, G) (plain m)) by (intros k G I; apply in_map_iff; exists (k, G); auto).
    destruct (quo_groups ht ord h s (plain m) OV (fun v => v) s g R (quo_id ht h s)) as (g' & s' & phi & E & R' & Q & OUT & P).
    - rewrite plain_snd. apply (Permutation_NoDup (Permutation_sym A4)), N.
    - intros k G I. destruct (PL k G I) as [k' I']. split; [intros x J; apply H, (IN k' G x I' J)|]. intros x y J1 J2. apply (SG k' G x y I' J1 J2).
    - rewrite plain_snd in OUT. exists g', s', phi. split; [exact E|]. split; [exact R'|]. split; [exact Q|]. split.
      + intros v. destruct (in_dec Nat.eq_dec v (concat (map snd m))) as [J|J]; [|rewrite (OUT v J); reflexivity].
        apply in_concat in J. destruct J as (G & J & J'). apply in_map_iff in J. destruct J as ([k G'] & EG & J). cbn in EG. subst G'. destruct (P _ _ (LP k G J)) as [P1 _]. apply (SG k G _ _ J (P1 v J') J').
      + intros x y I J SE. apply (lsig_eqb_spec g s x y R) in SE.
        apply (Permutation_in _ (Permutation_sym A4)), in_concat in I. apply (Permutation_in _ (Permutation_sym A4)), in_concat in J. destruct I as (G1 & I & I'), J as (G2 & J & J'). apply in_map_iff in I, J. destruct I as ([k1 G1'] & E1 & I), J as ([k2 G2'] & E2 & J). cbn in E1, E2. subst G1' G2'.
        assert (SK : lsig_eqb k1 k2 = true /\ lsig_eqb k2 k1 = true).
        { pose proof (A1 _ _ I _ I') as B1. pose proof (A1 _ _ J _ J') as B2. assert (B3 : lsig_eqb k1 k2 = true) by (apply (lsig_eqb_trans _ (sig g x)); [apply lsig_eqb_sym, B1|apply (lsig_eqb_trans _ (sig g y)); assumption]). split; [exact B3|apply lsig_eqb_sym, B3]. }
        destruct (ForallOrdPairs_In A2 _ _ I J) as [EQ|[EQ|EQ]]; cbn in EQ; [|destruct SK; congruence|destruct SK; congruence]. injection EQ as <- <-. apply (proj2 (P _ _ (LP k1 G1 I)) x y I' J').
  Qed.

  (** ** Behaviours *)
  Definition sfollows (s s' : aaut) (x y : nat) : Prop :=
    forall w r, path (aa_T s) x w r -> exists r', path (aa_T s') y w r' /\ lab r' = lab r /\ aa_final s' r' = aa_final s r.
  Definition beh (s s' : aaut) (x y : nat) : Prop := sfollows s s' x y /\ sfollows s' s y x.
  Lemma beh_refl s x : beh s s x x. Proof. split; intros w r P; exists r; auto. Qed.
  Lemma beh_sym s s' x y : beh s s' x y -> beh s' s y x. Proof. intros [H K]. split; assumption. Qed.
  Lemma sf_trans s s' s'' x y z : sfollows s s' x y -> sfollows s' s'' y z -> sfollows s s'' x z.
  Proof. intros H K w r P. destruct (H w r P) as (r1 & P1 & L1 & F1). destruct (K w r1 P1) as (r2 & P2 & L2 & F2). exists r2. split; [exact P2|]. split; congruence. Qed.
  Lemma beh_trans s s' s'' x y z : beh s s' x y -> beh s' s'' y z -> beh s s'' x z.
  Proof. intros [H1 H2] [K1 K2]. split; eapply sf_trans; eassumption. Qed.
  Lemma quo_beh h phi s s' q : quo ht h phi s s' -> (forall v, lab (phi v) = lab v) -> beh s s' q (phi q).
  Proof.
    intros Q QL. split; intros w r P.
    - exists (phi r). split; [apply (quo_path ht h phi s s' Q), P|]. split; [apply QL|]. rewrite (q_final _ _ _ _ _ Q). apply (q_sig _ _ _ _ _ Q r).
    - destruct (quo_path_inv ht h phi s s' Q _ _ _ P q eq_refl) as (r0 & P0 & <-). exists r0. split; [exact P0|]. split; [symmetry; apply QL|]. rewrite (q_final _ _ _ _ _ Q). symmetry. apply (q_sig _ _ _ _ _ Q r0).
  Qed.

  (** ** The loop *)
  Record linv (s0 : aaut) (h : nat) (todo : list nat) (s : aaut) : Prop := {
    l_q0 : aa_q0 s = aa_q0 s0;
    l_final : aa_final s = aa_final s0;
    l_V : forall v, In v (aa_V s) -> In v (aa_V s0);
    l_same : forall v, In v (aa_V s) -> beh s0 s v v;
    l_down : forall p r a, In (Edge p r a) (aa_T s) -> ht r < ht p;
    l_next : forall p n, In p (aa_V s) -> ht p = S n -> exists r a, In (Edge p r a) (aa_T s) /\ ht r = n;
    l_todo : NoDup todo /\ forall v, In v todo <-> In v (aa_V s) /\ ht v = h;
    l_uniq : forall x y, In x (aa_V s) -> In y (aa_V s) -> ht x < h -> lsigeq s x y -> x = y;
    l_removed : forall v, In v (aa_V s0) -> ~ In v (aa_V s) -> exists q, In q (aa_V s) /\ (q < v /\ ht q = ht v) /\ beh s0 s0 q v }.
  Lemma linv_step ord s0 h todo l s (g : iaut A) : valid_order ord -> iarep g s -> linv s0 h todo s -> Permutation l todo ->
    exists g' s', foreach (lmerge_group pe ord) g (laggregates pv pe g l) = (g', Ok tt) /\ iarep g' s' /\
      linv s0 (S h) (sof (filter (fun p => ht p =? S h) (flat_map (fun q => map source (IA_in_edges g' q)) todo))) s'.
  Proof.
    intros OV R I PL. destruct (l_todo _ _ _ _ I) as [TN TI].
    destruct (llevel_merge ord h s g l OV R) as (g' & s' & phi & E & R' & Q & QL & U).
    { apply (Permutation_NoDup (Permutation_sym PL)), TN. }
    { intros v. rewrite <- TI. split; apply Permutation_in; [exact PL|symmetry; exact PL]. }
    assert (QB : forall q, beh s s' q (phi q)) by (intros q; apply (quo_beh h phi s s' q Q QL)).
    exists g', s'. split; [exact E|]. split; [exact R'|].
    assert (VV : forall v, In v (aa_V s') -> In v (aa_V s) /\ phi v = v) by (intros v; apply (q_V _ _ _ _ _ Q)).
    assert (VP : forall v, In v (aa_V s) -> In (phi v) (aa_V s')) by (intros v J; apply (q_V _ _ _ _ _ Q); split; [apply (q_in _ _ _ _ _ Q), J|apply (q_idem _ _ _ _ _ Q)]).
    assert (BP : forall v, beh s s (phi v) v).
    { intros v. apply (beh_trans _ s' _ _ (phi v)); [|apply beh_sym, QB]. rewrite <- (q_idem _ _ _ _ _ Q v) at 2. apply QB. }
    assert (DOWN : forall p r a, In (Edge p r a) (aa_T s') -> ht r < ht p).
    { intros p r a J. apply (q_T _ _ _ _ _ Q) in J. destruct J as (_ & r0 & J & <-). rewrite (q_ht _ _ _ _ _ Q). apply (l_down _ _ _ _ I _ _ _ J). }
    assert (NEXT : forall p n, In p (aa_V s') -> ht p = S n -> exists r a, In (Edge p r a) (aa_T s') /\ ht r = n).
    { intros p n J Hp. destruct (VV p J) as [J1 J2]. destruct (l_next _ _ _ _ I p n J1 Hp) as (r & a & T & Hr). exists (phi r), a. rewrite (q_ht _ _ _ _ _ Q). split; [|exact Hr]. apply (q_T _ _ _ _ _ Q). split; [exact J2|]. exists r. auto. }
    split.
    - rewrite (q_q0 _ _ _ _ _ Q). apply (l_q0 _ _ _ _ I).
    - rewrite (q_final _ _ _ _ _ Q). apply (l_final _ _ _ _ I).
    - intros v J. apply (l_V _ _ _ _ I), VV, J.
    - intros v J. destruct (VV v J) as [J1 J2]. apply (beh_trans _ s _ _ v); [apply (l_same _ _ _ _ I v J1)|]. rewrite <- J2 at 2. apply QB.
    - exact DOWN.
    - exact NEXT.
    - split; [apply NoDup_sof|]. intros v. rewrite In_sof, filter_In, Nat.eqb_eq, in_flat_map. split.
      + intros [(q & J1 & J2) Hv]. apply in_map_iff in J2. destruct J2 as ([p r a] & <- & J2). apply (In_obs_in _ _ _ _ R') in J2. split; [apply (iarep_closed _ _ R' _ _ _ (proj2 J2))|exact Hv].
      + intros [J Hv]. split; [|exact Hv]. destruct (NEXT v h J Hv) as (r & a & T & Hr). exists r. split.
        * apply TI. split; [apply VV, (iarep_closed _ _ R' _ _ _ T)|exact Hr].
        * apply in_map_iff. exists (Edge v r a). split; [reflexivity|]. apply (In_obs_in _ _ _ _ R'). auto.
    - intros x y Jx Jy Lx [SY SG].
      assert (Hxy : ht x = ht y).
      { assert (LE : forall x y, In x (aa_V s') -> sigeq s' x y -> ht x <= ht y).
        { clear - NEXT DOWN. intros x y Vx [_ SG]. destruct (ht x) as [|n] eqn:E; [lia|]. destruct (NEXT x n Vx E) as (r & a & T & <-). apply SG, DOWN in T. lia. }
        pose proof (LE x y Jx SG). pose proof (LE y x Jy (sigeq_sym _ _ _ SG)). lia. }
      destruct (VV x Jx) as [Vx Fx], (VV y Jy) as [Vy Fy].
      assert (LOW : forall v, ht v <= h -> phi v = v -> forall a r, In (Edge v r a) (aa_T s') <-> In (Edge v r a) (aa_T s)).
      { intros v Lv Fv a r. rewrite (q_T _ _ _ _ _ Q). split.
        - intros (_ & r0 & T & Er). pose proof (l_down _ _ _ _ I _ _ _ T) as D. rewrite (q_level _ _ _ _ _ Q) in Er by lia. subst r0. exact T.
        - intros T. split; [exact Fv|]. exists r. split; [exact T|]. pose proof (l_down _ _ _ _ I _ _ _ T) as D. apply (q_level _ _ _ _ _ Q). lia. }
      assert (SG0 : lsigeq s x y).
      { split; [exact SY|]. destruct SG as [S1 S2]. split; [rewrite <- (q_final _ _ _ _ _ Q); exact S1|]. intros a r. rewrite <- (LOW x), <- (LOW y) by (lia || assumption). apply S2. }
      destruct (Nat.eq_dec (ht x) h) as [Hx|Nx]; [|apply (l_uniq _ _ _ _ I x y); auto; lia].
      rewrite <- Fx, <- Fy. apply U; [| |exact SG0]; apply (Permutation_in _ (Permutation_sym PL)), TI; split; auto; lia.
    - intros v V0 NV. destruct (in_dec Nat.eq_dec v (aa_V s)) as [Vv|NVv].
      + exists (phi v). split; [apply VP, Vv|]. split.
        * pose proof (q_le _ _ _ _ _ Q v). assert (phi v <> v) by (intros F; apply NV; rewrite <- F; apply VP, Vv). split; [lia|apply (q_ht _ _ _ _ _ Q)].
        * apply (beh_trans _ s _ _ (phi v)); [apply (l_same _ _ _ _ I), (q_in _ _ _ _ _ Q), Vv|]. apply (beh_trans _ s _ _ v); [apply BP|apply beh_sym, (l_same _ _ _ _ I v Vv)].
      + destruct (l_removed _ _ _ _ I v V0 NVv) as (q & Vq & [Lq Hq] & Sq). exists (phi q). split; [apply VP, Vq|]. split; [pose proof (q_le _ _ _ _ _ Q q); rewrite (q_ht _ _ _ _ _ Q); split; [lia|exact Hq]|].
        apply (beh_trans _ s0 _ _ q); [|exact Sq]. apply (beh_trans _ s _ _ (phi q)); [apply (l_same _ _ _ _ I), (q_in _ _ _ _ _ Q), Vq|]. apply (beh_trans _ s _ _ q); [apply BP|apply beh_sym, (l_same _ _ _ _ I q Vq)].
  Qed.
  Lemma llevel_empty s0 h s : linv s0 h [] s -> forall v, In v (aa_V s) -> (forall p r a, In (Edge p r a) (aa_T s) -> In r (aa_V s)) -> ht v < h.
  Proof.
    intros I v Vv CL. destruct (Nat.lt_ge_cases (ht v) h) as [L|G]; [exact L|]. exfalso. revert v Vv G. assert (K : forall n v, In v (aa_V s) -> ht v = n + h -> False).
    { induction n as [|n IH]; intros v Vv Hv; [destruct (l_todo _ _ _ _ I) as [_ T]; apply (T v); auto|]. destruct (l_next _ _ _ _ I v (n + h) Vv Hv) as (r & a & J & Hr). apply (IH r (CL _ _ _ J) Hr). }
    intros v Vv G. apply (K (ht v - h) v Vv). lia.
  Qed.
  Lemma beh_uniq s0 h (g : iaut A) s : iarep g s -> linv s0 h [] s -> forall n x y, ht x < n -> In x (aa_V s) -> In y (aa_V s) -> beh s s x y -> x = y.
  Proof.
    intros R I. pose proof (iarep_det g s R) as DET. pose proof (iarep_closed g s R) as CL.
    induction n as [|n IH]; intros x y L Vx Vy SW; [lia|].
    assert (ST : forall p q a r, sfollows s s p q -> In (Edge p r a) (aa_T s) -> exists r', In (Edge q r' a) (aa_T s)).
    { intros p q a r S1 J. destruct (S1 [a] r) as (t & P & _); [econstructor; [exact J|constructor]|]. inversion P as [|? ? r' ? ? J' P']; subst. exists r'. exact J'. }
    assert (NX1 : forall p q a r r', sfollows s s p q -> In (Edge p r a) (aa_T s) -> In (Edge q r' a) (aa_T s) -> sfollows s s r r').
    { intros p q a r r' S1 J J' w t P. destruct (S1 (a :: w) t) as (t' & P' & F'); [econstructor; eassumption|]. inversion P' as [|? ? r2 ? ? J2 P2]; subst. rewrite (DET _ _ _ _ J' J2). exists t'. auto. }
    assert (NX : forall p q a r r', beh s s p q -> In (Edge p r a) (aa_T s) -> In (Edge q r' a) (aa_T s) -> beh s s r r').
    { intros p q a r r' [S1 S2] J J'. split; [apply (NX1 p q a)|apply (NX1 q p a)]; assumption. }
    apply (l_uniq _ _ _ _ I x y Vx Vy).
    - apply (llevel_empty s0 h s I x Vx). intros p r a J. apply (CL _ _ _ J).
    - destruct (proj1 SW [] x (path_nil _ x)) as (y' & P & LB & FN). inversion P; subst y'. split; [auto|]. split; [auto|]. intros a r. split; intros J.
      + destruct (ST x y a r (proj1 SW) J) as [r' J']. assert (r = r') as <-; [|exact J']. apply IH; [pose proof (l_down _ _ _ _ I _ _ _ J); lia|apply (CL _ _ _ J)|apply (CL _ _ _ J')|apply (NX x y a); assumption].
      + destruct (ST y x a r (proj2 SW) J) as [r' J']. assert (r' = r) as <-; [|exact J']. apply IH; [pose proof (l_down _ _ _ _ I _ _ _ J'); lia|apply (CL _ _ _ J')|apply (CL _ _ _ J)|apply (NX x y a); assumption].
  Qed.
End M.

Section Loop.
  Context {A B : Type} {EA : EqDec A} {EB : EqDec B}.
  Variables (pv : option (nat -> B)) (pe : option (edge A -> A)) (heights : dict nat nat).
  Hypothesis LAB : forall e, edge_label pe e = distinguisher e.
  Let ht := height_of heights.
  Lemma lminimize_loop_spec ord ord_v s0 N : valid_order ord -> valid_order ord_v -> (forall v, In v (aa_V s0) -> ht v < N) -> forall fuel h todo (g : iaut A) s, iarep g s -> linv pv ht s0 h todo s -> N <= h + fuel ->
    exists g' s' h', lminimize_loop pv pe fuel ord ord_v heights h todo g = Some (g', Ok (Z.of_nat h' - 1)%Z) /\ iarep g' s' /\ linv pv ht s0 h' [] s' /\ h <= h' /\ forall n, h <= n < h' -> exists v, In v (aa_V s0) /\ ht v = n.
  Proof.
    intros OE OV BN. induction fuel as [|fuel IH]; intros h todo g s R I F.
    - destruct todo as [|x todo]; cbn [lminimize_loop]; [exists g, s, h; split; [reflexivity|split; [exact R|split; [exact I|split; [lia|intros; lia]]]]|].
      exfalso. assert (J : In x (aa_V s) /\ ht x = h) by (apply (l_todo _ _ _ _ _ _ I); left; reflexivity). pose proof (BN x (l_V _ _ _ _ _ _ I x (proj1 J))). lia.
    - destruct todo as [|x todo]; cbn [lminimize_loop]; [exists g, s, h; split; [reflexivity|split; [exact R|split; [exact I|split; [lia|intros; lia]]]]|].
      destruct (linv_step pv pe LAB ht ord s0 h (x :: todo) (ord_v fuel (x :: todo)) s g OE R I (OV _ _)) as (g' & s' & -> & R' & I').
      destruct (IH _ _ g' s' R' I' ltac:(lia)) as (g2 & s2 & h2 & E & R2 & I2 & L2 & K2). exists g2, s2, h2. split; [exact E|]. split; [exact R2|]. split; [exact I2|]. split; [lia|].
      intros n Hn. destruct (Nat.eq_dec n h) as [->|]; [|apply K2; lia]. exists x. destruct (proj1 (proj2 (l_todo _ _ _ _ _ _ I) x) (or_introl eq_refl)) as [V1 H1]. split; [apply (l_V _ _ _ _ _ _ I), V1|exact H1].
  Qed.
End Loop.
