(** Proofs about UndirectedGraph and IncidenceGraph. *)
From Verif Require Import Base BaseProofs Graph GraphSpec GraphProofs.

(** ** Undirected graphs *)

Definition diag (u v : nat) : Prop := u = v.

Record urep (g : graph) (V : list nat) (E : list gedge) : Prop := {
  ur_wf : wf_adj (adjacencies g);
  ur_tight : tightP diag (adjacencies g);
  ur_keys : dkeys (adjacencies g) = V;
  ur_nd : NoDup E;
  ur_norm : forall e, In e E -> norm e = e;
  ur_in : forall u v n, In n (asets (adjacencies g) u v) <-> In (norm (Edge u v n)) E }.

Lemma norm_le e : norm e = e <-> source e <= target e.
Proof.
  destruct e as [u v n]. unfold norm. cbn. split.
  - intros E. injection E. lia.
  - intros L. f_equal; lia.
Qed.
Lemma norm_sym u v n : norm (Edge u v n) = norm (Edge v u n).
Proof. unfold norm. cbn. rewrite Nat.min_comm, Nat.max_comm. reflexivity. Qed.
Lemma norm_cases e : norm e = e \/ norm e = Edge (target e) (source e) (distinguisher e).
Proof.
  destruct e as [u v n]. unfold norm; cbn. destruct (Nat.le_ge_cases u v); [left|right]; f_equal; lia.
Qed.
Lemma norm_idem e : norm (norm e) = norm e.
Proof. unfold norm. cbn. f_equal; lia. Qed.

Lemma asets_sym g V E u v n : urep g V E ->
  (In n (asets (adjacencies g) u v) <-> In n (asets (adjacencies g) v u)).
Proof. intros R. rewrite !(ur_in _ _ _ R), norm_sym. tauto. Qed.

Lemma ur_in' g V E e : urep g V E ->
  (In (distinguisher e) (asets (adjacencies g) (source e) (target e)) <-> In (norm e) E).
Proof. intros R. rewrite (ur_in _ _ _ R). destruct e; tauto. Qed.

Lemma ur_endpoints g V E e : urep g V E -> In e E -> In (source e) V /\ In (target e) V.
Proof.
  intros R I. assert (N := ur_norm _ _ _ R _ I). rewrite <- N in I.
  apply (ur_in' _ _ _ _ R) in I. assert (I2 := I). apply (asets_sym _ _ _ _ _ _ R) in I2.
  apply asets_key in I, I2. rewrite (ur_keys _ _ _ R) in I, I2. auto.
Qed.

Lemma urep_edges g V E : urep g V E -> Permutation (UG_edges g) E.
Proof.
  intros R. apply NoDup_Permutation.
  - apply NoDup_filter, NoDup_edges, (ur_wf _ _ _ R).
  - apply (ur_nd _ _ _ R).
  - intros e. unfold UG_edges. rewrite filter_In, In_edges by (apply (ur_wf _ _ _ R)).
    rewrite (ur_in' _ _ _ _ R), Nat.leb_le, <- norm_le. split.
    + intros (A & B). rewrite B in A. exact A.
    + intros A. assert (B := ur_norm _ _ _ R _ A). rewrite B. auto.
Qed.

Lemma In_ends_from u e x :
  In x (ends_from u e) -> source x = u /\ norm x = norm e.
Proof.
  unfold ends_from. destruct (Nat.eqb_spec (source e) u); [intros [<-|[]]; auto|].
  destruct (Nat.eqb_spec (target e) u) as [<-|]; [|intros []]. intros [<-|[]].
  split; [reflexivity|]. rewrite norm_sym. destruct e; reflexivity.
Qed.

Lemma urep_out g V E u : urep g V E -> Permutation (G_out_edges g u) (flat_map (ends_from u) E).
Proof.
  intros R. apply NoDup_Permutation.
  - apply NoDup_out_edges, (ur_wf _ _ _ R).
  - apply NoDup_flat_map; [apply (ur_nd _ _ _ R)| |].
    + intros e _. unfold ends_from. destruct (source e =? u); [repeat constructor; intros []|].
      destruct (target e =? u); repeat constructor; intros [].
    + intros x y z Ix Iy Zx Zy. apply In_ends_from in Zx, Zy.
      rewrite <- (ur_norm _ _ _ R x Ix), <- (ur_norm _ _ _ R y Iy).
      destruct Zx as [_ Zx], Zy as [_ Zy]. congruence.
  - intros e. rewrite In_out_edges by (apply (ur_wf _ _ _ R)). rewrite in_flat_map. split.
    + intros (S & I). subst u. apply (ur_in' _ _ _ _ R) in I. exists (norm e). split; [exact I|].
      unfold ends_from. destruct (norm_cases e) as [->| ->].
      * rewrite Nat.eqb_refl. left. reflexivity.
      * cbn. destruct (Nat.eqb_spec (target e) (source e)) as [Q|Q].
        -- left. destruct e as [a b c]. cbn in *. congruence.
        -- rewrite Nat.eqb_refl. left. destruct e; reflexivity.
    + intros (x & Ix & Ie). apply In_ends_from in Ie. destruct Ie as (S & N).
      split; [exact S|]. subst u. apply (ur_in' _ _ _ _ R). rewrite N, (ur_norm _ _ _ R _ Ix). exact Ix.
Qed.

Lemma urep_between g V E u v : urep g V E -> u <= v ->
  Permutation (map distinguisher (between u v E)) (asets (adjacencies g) u v).
Proof.
  intros R L. apply NoDup_Permutation.
  - apply NoDup_map_inj_in; [apply NoDup_filter, (ur_nd _ _ _ R)|].
    intros x y Ix Iy Eq. apply In_between in Ix, Iy. destruct Ix as (_ & <- & <-), Iy as (_ & E1 & E2).
    rewrite (edge_eta x), (edge_eta y). congruence.
  - apply (wf_sets _ (ur_wf _ _ _ R)).
  - intros n. rewrite in_map_iff, (ur_in _ _ _ R).
    assert (N : norm (Edge u v n) = Edge u v n) by (apply norm_le; exact L). rewrite N. split.
    + intros (e & <- & I). apply In_between in I. destruct I as (I & <- & <-). destruct e; exact I.
    + intros I. exists (Edge u v n). split; [reflexivity|]. apply In_between. auto.
Qed.

Lemma urep_add_edge g V E u0 v0 : urep g V E -> In u0 V -> In v0 V ->
  let u := Nat.min u0 v0 in let v := Nat.max u0 v0 in
  let n := fresh (between u v E) in
  exists g', UG_add_edge g u0 v0 = (g', Ok (Edge u v n, true)) /\
    last_vertex_id g' = last_vertex_id g /\ urep g' V (E ++ [Edge u v n]).
Proof.
  intros R I1 I2 u v n.
  assert (L : u <= v) by (unfold u, v; lia).
  assert (Iu : In u V) by (unfold u; destruct (Nat.min_spec u0 v0) as [[_ ->]|[_ ->]]; assumption).
  assert (Iv : In v V) by (unfold v; destruct (Nat.max_spec u0 v0) as [[_ ->]|[_ ->]]; assumption).
  assert (W := ur_wf _ _ _ R). assert (K := ur_keys _ _ _ R).
  rewrite <- K in Iu. apply key_dget in Iu. destruct Iu as (d & Ed).
  destruct (G_add_edge_ok g u v d Ed) as (s & EQ & Is & Ns).
  assert (F : n = next_n (asets (adjacencies g) u v)).
  { apply fresh_next_n. eapply urep_between; eassumption. }
  rewrite <- F in EQ, Is.
  assert (Fr : ~ In n (asets (adjacencies g) u v)) by (rewrite F; apply next_n_fresh).
  assert (NS : NoDup s) by (apply Ns, (wf_sets _ W)).
  assert (Sne : s <> []). { intros ->. apply (proj2 (Is n)). left. reflexivity. }
  unfold UG_add_edge. fold u v. rewrite EQ. cbn [adjacencies distinguisher].
  set (m1 := dset (adjacencies g) u (dset d v s)).
  assert (W1 : wf_adj m1) by (apply wf_dset; assumption).
  assert (K1 : dkeys m1 = V) by (unfold m1; erewrite dkeys_dset_stored by exact Ed; exact K).
  assert (T1 : tightP diag m1) by (apply tight_dset; [apply (ur_tight _ _ _ R)|exact Ed|auto]).
  assert (A1 : forall u' v', asets m1 u' v' = if eqb (u', v') (u, v) then s else asets (adjacencies g) u' v').
  { intros. apply asets_dset. exact Ed. }
  rewrite <- K1 in Iv. apply key_dget in Iv. destruct Iv as (dv & Edv). rewrite Edv.
  set (s1 := match dget dv u with None => [] | Some s => s end).
  assert (S1 : s1 = asets m1 v u) by (unfold asets, s1; rewrite Edv; reflexivity).
  eexists. split; [reflexivity|]. split; [reflexivity|].
  assert (NN : norm (Edge u v n) = Edge u v n) by (apply norm_le; exact L).
  split; cbn [adjacencies].
  - apply wf_dset; [exact W1|exact Edv|]. apply NoDup_sadd. rewrite S1. apply (wf_sets _ W1).
  - apply tight_dset; [exact T1|exact Edv|]. intros _ Z.
    assert (Y : In n (sadd n s1)) by (apply In_sadd; left; reflexivity). rewrite Z in Y. exact Y.
  - erewrite dkeys_dset_stored by exact Edv. exact K1.
  - apply NoDup_snoc; [apply (ur_nd _ _ _ R)|]. rewrite <- NN, <- (ur_in _ _ _ R). exact Fr.
  - intros e I. apply in_app_iff in I. destruct I as [I|[<-|[]]]; [apply (ur_norm _ _ _ R), I|exact NN].
  - intros u' v' n'. rewrite asets_dset by exact Edv. rewrite in_app_iff. cbn [In].
    rewrite <- (ur_in _ _ _ R).
    destruct (eqb_spec (u', v') (v, u)) as [P|P].
    + injection P as -> ->. rewrite In_sadd, S1, A1, norm_sym.
      assert (NN' : norm (Edge u v n') = Edge u v n') by (apply norm_le; exact L). rewrite NN'.
      destruct (eqb_spec (v, u) (u, v)) as [Q|Q].
      * injection Q as Q _. rewrite Is, (asets_sym g V E v u n' R). intuition congruence.
      * intuition congruence.
    + rewrite A1. destruct (eqb_spec (u', v') (u, v)) as [Q|Q].
      * injection Q as -> ->. rewrite Is.
        assert (NN' : norm (Edge u v n') = Edge u v n') by (apply norm_le; exact L). rewrite NN'.
        intuition congruence.
      * split; [tauto|]. intros [J|[J|[]]]; [exact J|]. exfalso.
        destruct (norm_cases (Edge u' v' n')) as [C|C]; cbn in C; congruence.
Qed.

Lemma urep_remove_in g V E e : urep g V E -> In (norm e) E ->
  exists g', UG_remove_edge g e = (g', Ok tt) /\ last_vertex_id g' = last_vertex_id g /\
    urep g' V (without (norm e) E).
Proof.
  intros R I. assert (W := ur_wf _ _ _ R). assert (I' := I). apply (ur_in' _ _ _ _ R) in I'.
  destruct (adj_remove_in _ _ _ _ W I') as (m' & EQ & W' & K & T & S).
  unfold UG_remove_edge, G_remove_edge. rewrite EQ.
  set (u := source e) in *. set (v := target e) in *. set (n := distinguisher e) in *.
  assert (Enorm : norm e = norm (Edge u v n)) by (destruct e; reflexivity).
  destruct (Nat.eqb_spec u v) as [Q|Q].
  - eexists. split; [reflexivity|]. split; [reflexivity|]. split; cbn [adjacencies].
    + exact W'.
    + apply T, (ur_tight _ _ _ R).
    + rewrite K. apply (ur_keys _ _ _ R).
    + apply NoDup_filter, (ur_nd _ _ _ R).
    + intros x Ix. apply In_without in Ix. apply (ur_norm _ _ _ R). tauto.
    + intros u' v' n'. rewrite S, In_without, (ur_in _ _ _ R), Enorm.
      split; intros (A & B); (split; [exact A|]); intros C; apply B.
      * unfold norm in C. cbn in C. injection C as C1 C2 C3. repeat f_equal; lia.
      * congruence.
  - cbn [adjacencies last_vertex_id].
    assert (J : In n (asets m' v u)).
    { apply S. split; [apply (asets_sym _ _ _ _ _ _ R), I'|]. intros C. apply Q. congruence. }
    assert (J' := J). unfold asets in J.
    destruct (dget m' v) as [dv|] eqn:Edv; [|destruct J].
    destruct (dget dv u) as [s|] eqn:Es; [|destruct J].
    assert (As : asets m' v u = s) by (unfold asets; rewrite Edv, Es; reflexivity).
    apply mem_spec in J. rewrite J. eexists. split; [reflexivity|]. split; [reflexivity|].
    split; cbn [adjacencies].
    + apply wf_dset; [exact W'|exact Edv|]. apply NoDup_srem. rewrite <- As. apply (wf_sets _ W').
    + apply tight_dset; [apply T, (ur_tight _ _ _ R)|exact Edv|]. unfold diag. intros C. congruence.
    + erewrite dkeys_dset_stored by exact Edv. rewrite K. apply (ur_keys _ _ _ R).
    + apply NoDup_filter, (ur_nd _ _ _ R).
    + intros x Ix. apply In_without in Ix. apply (ur_norm _ _ _ R). tauto.
    + intros u' v' n'. rewrite asets_dset by exact Edv. rewrite In_without, Enorm.
      assert (NE : norm (Edge u' v' n') = norm (Edge u v n) <->
                   (u', v', n') = (u, v, n) \/ (u', v', n') = (v, u, n)).
      { split.
        - unfold norm. cbn. intros C. injection C as C1 C2 ->.
          assert ((u' = u /\ v' = v) \/ (u' = v /\ v' = u)) as [[-> ->]|[-> ->]] by lia; auto.
        - intros [C|C]; injection C as -> -> ->; [reflexivity|apply norm_sym]. }
      rewrite NE. clear NE. rewrite <- (ur_in _ _ _ R).
      destruct (eqb_spec (u', v') (v, u)) as [P|P].
      * injection P as -> ->. rewrite In_srem, <- As, S. intuition congruence.
      * rewrite S. intuition congruence.
Qed.

Lemma urep_remove_edge g V E e : urep g V E ->
  if mem (norm e) E
  then exists g', UG_remove_edge g e = (g', Ok tt) /\ last_vertex_id g' = last_vertex_id g /\
           urep g' V (without (norm e) E)
  else UG_remove_edge g e =
    (g, if (source e =? target e) && negb (length (between (source e) (target e) E) =? 0)
        then Ok tt else Raise KeyError).
Proof.
  intros R. destruct (mem_reflect (norm e) E) as [I|NI]; [apply urep_remove_in; assumption|].
  assert (N1 : ~ In (distinguisher e) (asets (adjacencies g) (source e) (target e))).
  { rewrite (ur_in' _ _ _ _ R). exact NI. }
  unfold UG_remove_edge, G_remove_edge. rewrite adj_remove_out by exact N1.
  destruct (Nat.eqb_spec (source e) (target e)) as [Q|Q]; cbn [andb].
  - rewrite (tight_present _ _ _ _ (ur_tight _ _ _ R) Q).
    assert (B := urep_between _ _ _ (source e) (target e) R).
    assert (BL := Permutation_length (B ltac:(lia))). rewrite map_length in BL. rewrite BL.
    destruct (asets (adjacencies g) (source e) (target e)); destruct g; reflexivity.
  - assert (N2 : ~ In (distinguisher e) (asets (adjacencies g) (target e) (source e))).
    { rewrite <- (asets_sym _ _ _ _ _ _ R). exact N1. }
    destruct (dget (adjacencies g) (source e)) as [d|]; [|destruct g; reflexivity].
    destruct (dget d (target e)) as [s|]; [|destruct g; reflexivity]. cbn [adjacencies].
    unfold asets in N2. destruct (dget (adjacencies g) (target e)) as [d'|]; [|destruct g; reflexivity].
    destruct (dget d' (source e)) as [s'|]; [|destruct g; reflexivity].
    apply mem_false in N2. rewrite N2. destruct g; reflexivity.
Qed.

Lemma urep_remove_list g V E (c : gedge -> bool) l :
  urep g V E -> NoDup (map norm l) -> (forall e, In e l -> In (norm e) E) ->
  exists g', foreach (fun g e => if c e then UG_remove_edge g e else (g, Ok tt)) g l = (g', Ok tt) /\
    last_vertex_id g' = last_vertex_id g /\
    exists E', urep g' V E' /\
      (forall x, In x E' <-> In x E /\ (forall e, In e l -> norm e = x -> c e = false)).
Proof.
  revert g E. induction l as [|a l IH]; intros g E R ND Sub.
  - exists g. cbn. split; [reflexivity|]. split; [reflexivity|]. exists E. split; [exact R|].
    intros x. split; [|tauto]. intros I. split; [exact I|]. intros e [].
  - cbn in ND. inversion ND as [|? ? NI ND']; subst. cbn [foreach].
    destruct (c a) eqn:C.
    + destruct (urep_remove_in g V E a R) as (g1 & EQ & L1 & R1); [apply Sub; left; reflexivity|].
      rewrite EQ. destruct (IH g1 _ R1 ND') as (g' & EQ' & L' & E' & R' & M).
      { intros e I. apply In_without. split; [apply Sub; right; exact I|]. intros Q.
        apply NI. rewrite <- Q. apply in_map. exact I. }
      exists g'. split; [exact EQ'|]. split; [congruence|]. exists E'. split; [exact R'|].
      intros x. rewrite M, In_without. split.
      * intros ((A & B) & D). split; [exact A|]. intros e [->|I] Q; [congruence|]. apply D; assumption.
      * intros (A & B). split; [split; [exact A|]|].
        -- intros Q. rewrite (B a) in C; [discriminate|left; reflexivity|congruence].
        -- intros e I. apply B. right. exact I.
    + destruct (IH g E R ND') as (g' & EQ' & L' & E' & R' & M).
      { intros e I. apply Sub. right. exact I. }
      exists g'. split; [exact EQ'|]. split; [congruence|]. exists E'. split; [exact R'|].
      intros x. rewrite M. split; intros (A & B); (split; [exact A|]).
      * intros e [->|I] Q; [exact C|]. apply B; assumption.
      * intros e I. apply B. right. exact I.
Qed.

Lemma urep_ext g V E E' : urep g V E -> NoDup E' -> (forall e, In e E' <-> In e E) -> urep g V E'.
Proof.
  intros [W T K N I J] N' H. split; try assumption.
  - intros e Ie. apply I, H, Ie.
  - intros u v n. rewrite H. apply J.
Qed.

Lemma urep_remove_vertex g V E u : urep g V E ->
  if mem u V
  then exists g', last_vertex_id g' = last_vertex_id g /\ UG_remove_vertex g u = (g', Ok tt) /\
         urep g' (filter (fun v => negb (v =? u)) V) (not_incident u E)
  else exists g', last_vertex_id g' = last_vertex_id g /\ UG_remove_vertex g u = (g', Raise KeyError) /\
         urep g' V E.
Proof.
  intros R. assert (PE := urep_edges _ _ _ R).
  assert (NE : forall e, In e (UG_edges g) -> norm e = e).
  { intros e I. apply (ur_norm _ _ _ R). eapply Permutation_in; [exact PE|exact I]. }
  destruct (urep_remove_list g V E (fun e => u =? target e) (UG_edges g) R) as (g1 & EQ1 & L1 & E1 & R1 & M1).
  { apply NoDup_map_inj_in.
    - eapply Permutation_NoDup; [symmetry; exact PE|apply (ur_nd _ _ _ R)].
    - intros x y Ix Iy. rewrite (NE x Ix), (NE y Iy). tauto. }
  { intros e I. rewrite (NE e I). eapply Permutation_in; [exact PE|exact I]. }
  assert (M1' : forall e, In e E1 <-> In e E /\ target e <> u).
  { intros e. rewrite M1. split; intros (A & B); (split; [exact A|]).
    - apply not_eq_sym, Nat.eqb_neq, B; [|apply (ur_norm _ _ _ R), A].
      eapply Permutation_in; [symmetry; exact PE|exact A].
    - intros x Ix Q. rewrite (NE x Ix) in Q. subst x. apply Nat.eqb_neq. congruence. }
  assert (PO := urep_out _ _ _ u R1).
  assert (NO : forall e, In e (G_out_edges g1 u) -> norm e = e /\ source e = u /\ In e E1).
  { intros e I. eapply Permutation_in in I; [|exact PO]. apply in_flat_map in I.
    destruct I as (x & Ix & I). unfold ends_from in I.
    destruct (Nat.eqb_spec (source x) u) as [Q|Q].
    - destruct I as [<-|[]]. split; [apply (ur_norm _ _ _ R1), Ix|]. auto.
    - exfalso. apply M1' in Ix. destruct Ix as [_ Ix].
      apply Nat.eqb_neq in Ix. rewrite Ix in I. exact I. }
  destruct (urep_remove_list g1 V E1 (fun _ => true) (G_out_edges g1 u) R1) as (g2 & EQ2 & L2 & E2 & R2 & M2).
  { apply NoDup_map_inj_in; [apply NoDup_out_edges, (ur_wf _ _ _ R1)|].
    intros x y Ix Iy. apply NO in Ix, Iy. destruct Ix as [-> _], Iy as [-> _]. tauto. }
  { intros e I. apply NO in I. destruct I as (-> & _ & I). exact I. }
  unfold UG_remove_vertex, remove_vertex_with. cbv zeta. rewrite EQ1.
  replace (foreach UG_remove_edge g1 (G_out_edges g1 u))
    with (foreach (fun (g : graph) (e : gedge) => if true then UG_remove_edge g e else (g, Ok tt)) g1 (G_out_edges g1 u))
    by reflexivity.
  rewrite EQ2.
  assert (R3 : urep g2 V (not_incident u E)).
  { eapply urep_ext; [exact R2|apply NoDup_filter, (ur_nd _ _ _ R)|].
    intros e. unfold not_incident. rewrite filter_In, M2, M1', negb_true_iff, orb_false_iff, !Nat.eqb_neq.
    split.
    - intros (A & B & C). split; [tauto|]. intros x Ix Q. apply NO in Ix.
      destruct Ix as (N & S & _). congruence.
    - intros ((A & B) & C). split; [exact A|]. split; [|exact B]. intros D.
      assert (Ie : In e E1) by (apply M1'; tauto).
      discriminate (C e). 2: apply (ur_norm _ _ _ R), A.
      eapply Permutation_in; [symmetry; exact PO|]. apply in_flat_map. exists e. split; [exact Ie|].
      unfold ends_from. apply Nat.eqb_eq in D. rewrite D. left. reflexivity. }
  destruct (mem_reflect u V) as [Iu|Nu].
  - exists (mkGraph (last_vertex_id g2) (ddel (adjacencies g2) u)). split; [cbn; congruence|].
    assert (D : dmem (adjacencies g2) u = true).
    { apply dmem_spec. rewrite (ur_keys _ _ _ R3). exact Iu. }
    rewrite D. split; [reflexivity|]. split; cbn [adjacencies].
    + apply wf_del, (ur_wf _ _ _ R3).
    + apply tight_del; [apply (ur_wf _ _ _ R3) | apply (ur_tight _ _ _ R3)].
    + rewrite dkeys_ddel by (apply (wf_keys _ (ur_wf _ _ _ R3))). rewrite (ur_keys _ _ _ R3).
      unfold srem. apply filter_ext. intros x. f_equal.
      destruct (eqb_spec u x), (Nat.eqb_spec x u); congruence.
    + apply (ur_nd _ _ _ R3).
    + apply (ur_norm _ _ _ R3).
    + intros a b n. rewrite asets_del by (apply (ur_wf _ _ _ R3)).
      destruct (eqb_spec a u) as [P|P]; [|apply (ur_in _ _ _ R3)]. split; [intros []|]. intros I. subst a.
      unfold not_incident in I.
      apply filter_In in I. destruct I as [_ I]. apply negb_true_iff, orb_false_iff in I.
      rewrite !Nat.eqb_neq in I. unfold norm in I. cbn in I. lia.
  - exists g2. split; [congruence|].
    assert (D : dmem (adjacencies g2) u = false).
    { apply dmem_false. rewrite (ur_keys _ _ _ R3). exact Nu. }
    rewrite D. split; [reflexivity|].
    replace E with (not_incident u E); [exact R3|]. apply filter_id.
    intros e I. apply (ur_endpoints _ _ _ _ R) in I.
    apply negb_true_iff, orb_false_iff. rewrite !Nat.eqb_neq. split; intros Q; subst u; tauto.
Qed.

Lemma urep_clear g V E : urep g V E -> UG_clear g = (mkGraph 0 [], Ok tt).
Proof.
  intros R. unfold UG_clear, clear_with.
  pose (P := fun g' (rest : list nat) => last_vertex_id g' = 0 /\ exists E', urep g' rest E').
  assert (R0 : urep (mkGraph 0 (adjacencies g)) V E) by (destruct R; split; assumption).
  destruct (foreach_inv UG_remove_vertex P) with (l := V) (s := mkGraph 0 (adjacencies g))
    as (g' & EQ & L & E' & R').
  - intros g1 x rest (L & E1 & R1).
    assert (H := urep_remove_vertex g1 _ _ x R1).
    assert (M : mem x (x :: rest) = true) by (apply mem_spec; left; reflexivity).
    rewrite M in H. destruct H as (g2 & L2 & EQ & R2). exists g2. split; [exact EQ|]. split; [congruence|].
    rewrite filter_remove_head in R2; [eauto|].
    rewrite <- (ur_keys _ _ _ R1). apply (wf_keys _ (ur_wf _ _ _ R1)).
  - split; [reflexivity|]. eauto.
  - unfold G_vertices. cbn [adjacencies]. rewrite (ur_keys _ _ _ R), EQ.
    assert (K := ur_keys _ _ _ R'). destruct g' as [l a]. cbn in *.
    destruct a; [subst; reflexivity|discriminate].
Qed.

Definition urep_full (g : graph) (a : agraph) : Prop :=
  urep g (verts a) (es a) /\ last_vertex_id g = next_id a /\ counter_ok (next_id a) (verts a).

Lemma urep_add_vertex g V E : urep g V E -> ~ In (last_vertex_id g) V ->
  urep (fst (G_add_vertex g)) (V ++ [last_vertex_id g]) E.
Proof.
  intros R NI. assert (NI' := NI). rewrite <- (ur_keys _ _ _ R) in NI'.
  unfold G_add_vertex; cbn [fst]. split; cbn [adjacencies].
  - apply wf_new; [apply (ur_wf _ _ _ R)|exact NI'].
  - apply tight_new, (ur_tight _ _ _ R).
  - rewrite dkeys_dset_new by exact NI'. rewrite (ur_keys _ _ _ R). reflexivity.
  - apply (ur_nd _ _ _ R).
  - apply (ur_norm _ _ _ R).
  - intros u v n. rewrite asets_new by exact NI'. apply (ur_in _ _ _ R).
Qed.

Lemma u_step_ok g a op : urep_full g a ->
  (match op with OpAddEdge u v => In u (verts a) /\ In v (verts a) | _ => True end) ->
  urep_full (fst (UG_call g op)) (fst (u_step a op)) /\ snd (UG_call g op) = snd (u_step a op).
Proof.
  intros (R & L & C) Hop. destruct op as [|u v|e|u|]; cbn [UG_call u_step].
  - cbn. rewrite L. split; [|reflexivity]. split; [|split].
    + cbn. rewrite <- L. apply (urep_add_vertex g _ _ R).
      rewrite L. intros I. apply C in I. lia.
    + reflexivity.
    + cbn. intros v I. apply in_app_iff in I. destruct I as [I|[<-|[]]]; [apply C in I|]; lia.
  - destruct Hop as [Iu Iv].
    destruct (urep_add_edge g _ _ u v R Iu Iv) as (g' & -> & L' & R').
    assert (M1 : mem (Nat.min u v) (verts a) = true).
    { apply mem_spec. destruct (Nat.min_spec u v) as [[_ ->]|[_ ->]]; assumption. }
    assert (M2 : mem (Nat.max u v) (verts a) = true).
    { apply mem_spec. destruct (Nat.max_spec u v) as [[_ ->]|[_ ->]]; assumption. }
    rewrite M1, M2. cbn. split; [|reflexivity]. split; [exact R'|]. split; [cbn; congruence|exact C].
  - assert (H := urep_remove_edge g _ _ e R).
    destruct (mem (norm e) (es a)).
    + destruct H as (g' & -> & L' & R'). cbn. split; [|reflexivity]. split; [exact R'|].
      split; [cbn; congruence|exact C].
    + rewrite H. destruct (_ && _); cbn; (split; [|reflexivity]); split; auto.
  - assert (H := urep_remove_vertex g _ _ u R).
    destruct (mem u (verts a)); destruct H as (g' & L' & -> & R'); cbn; (split; [|reflexivity]);
      (split; [exact R'|]); (split; [cbn; congruence|]); [apply counter_filter|]; exact C.
  - rewrite (urep_clear g _ _ R). cbn. split; [|reflexivity]. split; [|split; [reflexivity|intros ? []]].
    split; cbn; try apply wf_adj_nil; try constructor; intros; try discriminate; tauto.
Qed.

Lemma urep_of_empty_drep g V : drep g V [] -> urep g V [].
Proof.
  intros [W T K N I]. split; try assumption.
  - intros u d v s _. apply T. exact Logic.I.
  - intros e [].
  - intros u v n. split; [|intros []]. intros H. apply (I (Edge u v n)) in H. exact H.
Qed.

Lemma U_init_rep n : urep_full (G_init n) (a_init n).
Proof.
  destruct (G_init_rep n) as (R & L & C). split; [|split; assumption].
  apply urep_of_empty_drep. exact R.
Qed.

Lemma undirected_run n ops : closed_prog u_step (a_init n) ops ->
  urep_full (fst (run UG_call (G_init n) ops)) (fst (run u_step (a_init n) ops)) /\
  snd (run UG_call (G_init n) ops) = snd (run u_step (a_init n) ops).
Proof. apply (run_refine_closed UG_call u_step urep_full u_step_ok), U_init_rep. Qed.

Theorem undirected_refinement : forall n ops, closed_prog u_step (a_init n) ops ->
  let '(g, outs) := run UG_call (G_init n) ops in
  let '(a, outs') := run u_step (a_init n) ops in
  outs = outs' /\
  G_vertices g = verts a /\
  Permutation (UG_edges g) (es a) /\
  (forall u, Permutation (G_out_edges g u) (a_star a u)) /\
  (forall u, Permutation (UG_in_edges g u) (a_star a u)) /\
  (forall u v, G_edge g u v = only (filter (fun e => target e =? v) (a_star a u))) /\
  G_num_vertices g = length (verts a) /\
  UG_num_edges g = length (es a) /\
  (forall u, G_out_degree g u = length (a_star a u)) /\
  G_has_vertex g = nonempty (verts a) /\
  UG_has_edge g = nonempty (es a).
Proof.
  intros n ops CP. destruct (undirected_run n ops CP) as (R & O).
  destruct (run UG_call (G_init n) ops) as [g outs], (run u_step (a_init n) ops) as [a outs'].
  cbn in R, O. destruct R as (R & L & C).
  assert (PE := urep_edges _ _ _ R). assert (PO := fun u => urep_out _ _ _ u R).
  assert (KV : G_vertices g = verts a) by (apply (ur_keys _ _ _ R)).
  split; [exact O|]. split; [exact KV|]. split; [exact PE|]. split; [exact PO|]. split; [exact PO|].
  split; [intros u v; apply G_edge_only; [apply (ur_wf _ _ _ R)|apply PO]|].
  split; [unfold G_num_vertices; rewrite KV; reflexivity|].
  split; [apply Permutation_length, PE|]. split; [intros u; apply Permutation_length, PO|].
  split; [unfold G_has_vertex; rewrite KV; reflexivity|]. exact (nonempty_perm _ _ PE).
Qed.

Theorem undirected_symmetric : forall n ops, closed_prog u_step (a_init n) ops ->
  let g := fst (run UG_call (G_init n) ops) in
  NoDup (UG_edges g) /\
  (forall e, In e (UG_edges g) -> source e <= target e) /\
  (forall u v k, In (Edge u v k) (G_out_edges g u) <-> In (Edge v u k) (G_out_edges g v)) /\
  (forall u v k, In (Edge u v k) (G_out_edges g u) <->
     In (Edge (Nat.min u v) (Nat.max u v) k) (UG_edges g)) /\
  (forall e, In e (G_out_edges g (source e)) ->
     exists g', UG_remove_edge g e = (g', Ok tt) /\
       UG_remove_edge g (Edge (target e) (source e) (distinguisher e)) =
         (fst (UG_remove_edge g (Edge (target e) (source e) (distinguisher e))), Ok tt) /\
       (forall x, In x (UG_edges g') <-> In x (UG_edges g) /\ x <> norm e) /\
       (forall x, In x (UG_edges (fst (UG_remove_edge g (Edge (target e) (source e) (distinguisher e)))))
          <-> In x (UG_edges g) /\ x <> norm e)).
Proof.
  intros n ops CP g. destruct (undirected_run n ops CP) as ((R & _) & _). fold g in R.
  set (a := fst (run u_step (a_init n) ops)) in *. clearbody a g.
  assert (PE := urep_edges _ _ _ R).
  assert (IE : forall x, In x (UG_edges g) <-> In x (es a)).
  { intros x. split; apply Permutation_in; [exact PE|symmetry; exact PE]. }
  assert (IO : forall u v k, In (Edge u v k) (G_out_edges g u) <-> In (norm (Edge u v k)) (es a)).
  { intros u v k. rewrite In_out_edges by (apply (ur_wf _ _ _ R)). cbn.
    rewrite (ur_in _ _ _ R). tauto. }
  split; [eapply Permutation_NoDup; [symmetry; exact PE|apply (ur_nd _ _ _ R)]|].
  split; [intros e Ie; apply norm_le, (ur_norm _ _ _ R), IE, Ie|].
  split; [intros u v k; rewrite !IO, norm_sym; tauto|].
  split; [intros u v k; rewrite IO, IE; unfold norm; cbn; tauto|].
  intros e Ie. set (e' := Edge (target e) (source e) (distinguisher e)).
  assert (In_e : In (norm e) (es a)) by (rewrite (edge_eta e) in Ie; apply IO in Ie; destruct e; exact Ie).
  assert (Ne : norm e' = norm e) by (unfold e'; rewrite norm_sym; destruct e; reflexivity).
  destruct (urep_remove_in g _ _ e R In_e) as (g1 & EQ1 & _ & R1).
  destruct (urep_remove_in g _ _ e' R) as (g2 & EQ2 & _ & R2); [rewrite Ne; exact In_e|].
  exists g1. split; [exact EQ1|]. rewrite EQ2. cbn [fst]. split; [reflexivity|].
  rewrite Ne in R2. assert (P1 := urep_edges _ _ _ R1). assert (P2 := urep_edges _ _ _ R2).
  split; intros x; rewrite IE, <- In_without; split; apply Permutation_in; auto using Permutation_sym.
Qed.

(** ** Incidence graphs *)

Record irep (g : igraph) (V : list nat) (E : list gedge) : Prop := {
  ir_d : drep (ig_base g) V E;
  ir_wf : wf_adj (in_adjacencies g);
  ir_tight : tight (in_adjacencies g);
  ir_keys : dkeys (in_adjacencies g) = V;
  ir_in : forall u v n, In n (asets (in_adjacencies g) v u) <-> In (Edge u v n) E }.

Lemma In_in_edges g v e : wf_adj (in_adjacencies g) ->
  (In e (IG_in_edges g v) <->
   target e = v /\ In (distinguisher e) (asets (in_adjacencies g) v (source e))).
Proof.
  intros W. unfold IG_in_edges, asets. destruct (dget (in_adjacencies g) v) as [d|] eqn:E; [|cbn; tauto].
  rewrite in_flat_map. split.
  - intros ([u s] & I & J). apply in_map_iff in J. destruct J as (n & <- & K). cbn.
    apply In_dget in I; [|apply (wf_inner _ W _ _ E)]. rewrite I. auto.
  - intros (<- & I). destruct (dget d (source e)) as [s|] eqn:E'; [|destruct I].
    exists (source e, s). split; [apply dget_In, E'|]. apply in_map_iff.
    exists (distinguisher e). split; [symmetry; apply edge_eta|exact I].
Qed.

Lemma NoDup_in_edges g v : wf_adj (in_adjacencies g) -> NoDup (IG_in_edges g v).
Proof.
  intros W. unfold IG_in_edges. destruct (dget (in_adjacencies g) v) as [d|] eqn:E; [|constructor].
  assert (ND := wf_inner _ W _ _ E).
  apply NoDup_flat_map.
  - apply NoDup_map_inv with (f := fst). exact ND.
  - intros [u s] I. apply NoDup_map_inj_in.
    + apply In_dget in I; [|exact ND]. eapply wf_inner_sets; eassumption.
    + intros x y _ _ Q. injection Q. auto.
  - intros [u s] [u' s'] z I I' J J'. apply in_map_iff in J, J'.
    destruct J as (n & <- & _), J' as (n' & Q & _). injection Q as -> _.
    apply In_dget in I, I'; [|assumption..]. congruence.
Qed.

Lemma irep_in g V E v : irep g V E -> Permutation (IG_in_edges g v) (filter (fun e => target e =? v) E).
Proof.
  intros R. apply NoDup_Permutation.
  - apply NoDup_in_edges, (ir_wf _ _ _ R).
  - apply NoDup_filter, (dr_nd _ _ _ (ir_d _ _ _ R)).
  - intros e. rewrite In_in_edges by (apply (ir_wf _ _ _ R)).
    rewrite filter_In, Nat.eqb_eq, (ir_in _ _ _ R). split.
    + intros (<- & I). destruct e; auto.
    + intros (I & <-). destruct e; auto.
Qed.

Lemma ir_endpoints g V E e : irep g V E -> In e E -> In (source e) V /\ In (target e) V.
Proof.
  intros R I. split.
  - apply (dr_in _ _ _ (ir_d _ _ _ R)) in I. apply asets_key in I.
    rewrite (dr_keys _ _ _ (ir_d _ _ _ R)) in I. exact I.
  - rewrite (edge_eta e) in I. apply (ir_in _ _ _ R) in I. apply asets_key in I.
    rewrite (ir_keys _ _ _ R) in I. exact I.
Qed.

Lemma irep_add_edge g V E u v : irep g V E -> In u V -> In v V ->
  let n := fresh (between u v E) in
  exists g', IG_add_edge g u v = (g', Ok (Edge u v n, true)) /\
    last_vertex_id (ig_base g') = last_vertex_id (ig_base g) /\ irep g' V (E ++ [Edge u v n]).
Proof.
  intros R Iu Iv n. destruct (drep_add_edge _ _ _ u v (ir_d _ _ _ R) Iu) as (b & EQ & L & RB).
  unfold IG_add_edge. rewrite EQ. cbn [distinguisher]. fold n in RB |- *.
  rewrite <- (ir_keys _ _ _ R) in Iv. apply key_dget in Iv. destruct Iv as (d & Ed). rewrite Ed.
  set (s := match dget d u with None => [n] | Some s => sadd n s end).
  assert (Is : forall x, In x s <-> x = n \/ In x (asets (in_adjacencies g) v u)).
  { intros x. unfold s, asets. rewrite Ed. destruct (dget d u); [apply In_sadd|].
    cbn. intuition congruence. }
  assert (NS : NoDup s).
  { unfold s. assert (N := wf_sets _ (ir_wf _ _ _ R) v u). unfold asets in N. rewrite Ed in N.
    destruct (dget d u); [apply NoDup_sadd, N|]. repeat constructor. intros []. }
  eexists. split; [reflexivity|]. split; [exact L|]. split; cbn [ig_base in_adjacencies].
  - exact RB.
  - apply wf_dset; [apply (ir_wf _ _ _ R)|exact Ed|exact NS].
  - apply tight_dset; [apply (ir_tight _ _ _ R)|exact Ed|]. intros _ Q.
    assert (J := proj2 (Is n) (or_introl eq_refl)). rewrite Q in J. exact J.
  - erewrite dkeys_dset_stored by exact Ed. apply (ir_keys _ _ _ R).
  - intros a b' k. rewrite asets_dset by exact Ed. rewrite in_app_iff, <- (ir_in _ _ _ R). cbn [In].
    destruct (eqb_spec (b', a) (v, u)) as [P|P].
    + injection P as -> ->. rewrite Is. intuition congruence.
    + split; [tauto|]. intros [J|[J|[]]]; [exact J|congruence].
Qed.

Lemma irep_remove_in g V E e : irep g V E -> In e E ->
  exists g', IG_remove_edge g e = (g', Ok tt) /\
    last_vertex_id (ig_base g') = last_vertex_id (ig_base g) /\ irep g' V (without e E).
Proof.
  intros R I. destruct (drep_remove_in _ _ _ e (ir_d _ _ _ R) I) as (b & EQ & L & RB).
  unfold IG_remove_edge. rewrite EQ. rewrite (edge_eta e) in I. apply (ir_in _ _ _ R) in I.
  destruct (adj_remove_in _ _ _ _ (ir_wf _ _ _ R) I) as (m' & EQ' & W' & K & T & S).
  rewrite EQ'. eexists. split; [reflexivity|]. split; [exact L|]. split; cbn [ig_base in_adjacencies].
  - exact RB.
  - exact W'.
  - apply T, (ir_tight _ _ _ R).
  - rewrite K. apply (ir_keys _ _ _ R).
  - intros u v n. rewrite S, In_without, (ir_in _ _ _ R).
    split; intros (A & B); (split; [exact A|]); intros C; apply B;
      destruct e as [a b' c]; cbn in *; congruence.
Qed.

Lemma irep_remove_edge g V E e : irep g V E ->
  match between (source e) (target e) E with
  | [] => IG_remove_edge g e = (g, Raise KeyError)
  | _ => exists g', IG_remove_edge g e = (g', Ok tt) /\
           last_vertex_id (ig_base g') = last_vertex_id (ig_base g) /\ irep g' V (without e E)
  end.
Proof.
  intros R. assert (H := drep_remove_edge _ _ _ e (ir_d _ _ _ R)).
  destruct (in_dec' e E) as [I|NI].
  - destruct (between (source e) (target e) E) as [|x l] eqn:EB.
    + exfalso. assert (J : In e (between (source e) (target e) E)) by (apply In_between; auto).
      rewrite EB in J. destruct J.
    + apply irep_remove_in; assumption.
  - destruct (between (source e) (target e) E) as [|x l] eqn:EB.
    + unfold IG_remove_edge. rewrite H. destruct g; reflexivity.
    + rewrite without_notin by exact NI. exists g. split; [|auto].
      assert (N1 : ~ In (distinguisher e) (asets (adjacencies (ig_base g)) (source e) (target e))).
      { rewrite <- (dr_in _ _ _ (ir_d _ _ _ R)). exact NI. }
      assert (N2 : ~ In (distinguisher e) (asets (in_adjacencies g) (target e) (source e))).
      { rewrite (ir_in _ _ _ R). destruct e; exact NI. }
      destruct H as (b & EQ & _).
      assert (B : b = ig_base g).
      { unfold G_remove_edge in EQ. rewrite adj_remove_out in EQ by exact N1.
        destruct g as [[? ?] ?]. cbn in *. congruence. }
      unfold IG_remove_edge. rewrite EQ. rewrite adj_remove_out by exact N2.
      rewrite (tight_present _ _ _ _ (ir_tight _ _ _ R) I).
      assert (J : In x (between (source e) (target e) E)) by (rewrite EB; left; reflexivity).
      apply In_between in J. destruct J as (J & S & T). rewrite (edge_eta x), S, T in J.
      apply (ir_in _ _ _ R) in J. destruct (asets (in_adjacencies g) (target e) (source e)); [destruct J|].
      subst b. destruct g; reflexivity.
Qed.

Lemma irep_remove_list g V E l :
  irep g V E -> NoDup l -> (forall e, In e l -> In e E) ->
  exists g', foreach IG_remove_edge g l = (g', Ok tt) /\
    last_vertex_id (ig_base g') = last_vertex_id (ig_base g) /\
    exists E', irep g' V E' /\ (forall x, In x E' <-> In x E /\ ~ In x l).
Proof.
  revert g E. induction l as [|a l IH]; intros g E R ND Sub.
  - exists g. cbn. split; [reflexivity|]. split; [reflexivity|]. exists E. split; [exact R|]. tauto.
  - inversion ND as [|? ? NI ND']; subst. cbn [foreach].
    destruct (irep_remove_in g V E a R) as (g1 & EQ & L1 & R1); [apply Sub; left; reflexivity|].
    rewrite EQ. destruct (IH g1 _ R1 ND') as (g' & EQ' & L' & E' & R' & M).
    { intros e I. apply In_without. split; [apply Sub; right; exact I|]. congruence. }
    exists g'. split; [exact EQ'|]. split; [congruence|]. exists E'. split; [exact R'|].
    intros x. rewrite M, In_without. cbn. intuition congruence.
Qed.

Lemma irep_ext g V E E' : irep g V E -> NoDup E' -> (forall e, In e E' <-> In e E) -> irep g V E'.
Proof.
  intros [D W T K I] N' H. split; try assumption.
  - eapply drep_ext; eassumption.
  - intros u v n. rewrite H. apply I.
Qed.

Lemma irep_remove_vertex g V E u : irep g V E ->
  if mem u V
  then exists g', last_vertex_id (ig_base g') = last_vertex_id (ig_base g) /\
         IG_remove_vertex g u = (g', Ok tt) /\
         irep g' (filter (fun v => negb (v =? u)) V) (not_incident u E)
  else IG_remove_vertex g u = (g, Raise KeyError).
Proof.
  intros R. destruct (mem_reflect u V) as [Iu|Nu].
  - assert (PI := irep_in _ _ _ u R).
    destruct (irep_remove_list g V E (IG_in_edges g u) R) as (g1 & EQ1 & L1 & E1 & R1 & M1).
    { apply NoDup_in_edges, (ir_wf _ _ _ R). }
    { intros e I. eapply Permutation_in in I; [|exact PI]. apply filter_In in I. tauto. }
    assert (PO := drep_out _ _ _ u (ir_d _ _ _ R1)).
    destruct (irep_remove_list g1 V E1 (IG_out_edges g1 u) R1) as (g2 & EQ2 & L2 & E2 & R2 & M2).
    { apply NoDup_out_edges, (dr_wf _ _ _ (ir_d _ _ _ R1)). }
    { intros e I. eapply Permutation_in in I; [|exact PO]. apply filter_In in I. tauto. }
    unfold IG_remove_vertex. rewrite EQ1, EQ2.
    assert (M1' : forall e, In e E1 <-> In e E /\ target e <> u).
    { intros e. rewrite M1. split; intros (A & B); (split; [exact A|]); intros C; apply B.
      - eapply Permutation_in; [symmetry; exact PI|]. apply filter_In. rewrite Nat.eqb_eq. auto.
      - eapply Permutation_in in C; [|exact PI]. apply filter_In in C. rewrite Nat.eqb_eq in C. tauto. }
    assert (M2' : forall e, In e E2 <-> In e E /\ target e <> u /\ source e <> u).
    { intros e. rewrite M2, M1'. split.
      - intros ((A & B) & C). split; [exact A|]. split; [exact B|]. intros D. apply C.
        eapply Permutation_in; [symmetry; exact PO|]. apply filter_In. rewrite Nat.eqb_eq, M1'. auto.
      - intros (A & B & C). split; [auto|]. intros D. apply C.
        eapply Permutation_in in D; [|exact PO]. apply filter_In in D. rewrite Nat.eqb_eq in D. tauto. }
    assert (R3 : irep g2 V (not_incident u E)).
    { eapply irep_ext; [exact R2|apply NoDup_filter, (dr_nd _ _ _ (ir_d _ _ _ R))|].
      intros e. unfold not_incident. rewrite filter_In, M2', negb_true_iff, orb_false_iff, !Nat.eqb_neq. tauto. }
    assert (NIe : forall e, In e (not_incident u E) -> source e <> u /\ target e <> u).
    { intros e I. unfold not_incident in I. apply filter_In in I. destruct I as [_ I].
      rewrite negb_true_iff, orb_false_iff, !Nat.eqb_neq in I. exact I. }
    assert (D1 : dmem (adjacencies (ig_base g2)) u = true).
    { apply dmem_spec. rewrite (dr_keys _ _ _ (ir_d _ _ _ R3)). exact Iu. }
    assert (D2 : dmem (in_adjacencies g2) u = true).
    { apply dmem_spec. rewrite (ir_keys _ _ _ R3). exact Iu. }
    rewrite D1, D2. eexists. split; [|split; [reflexivity|]]; [cbn; congruence|].
    assert (FE : filter (fun v => negb (v =? u)) V = srem u V).
    { unfold srem. apply filter_ext. intros x. f_equal.
      destruct (eqb_spec u x), (Nat.eqb_spec x u); congruence. }
    destruct R3 as [[W3 T3 K3 N3 I3] Wi Ti Ki Ii]. split; [split|..]; cbn [ig_base in_adjacencies adjacencies].
    + apply wf_del, W3.
    + apply tight_del; assumption.
    + rewrite dkeys_ddel by (apply (wf_keys _ W3)). rewrite K3. symmetry. exact FE.
    + exact N3.
    + intros e. rewrite asets_del by exact W3. rewrite I3.
      destruct (eqb_spec (source e) u) as [P|P]; [|tauto]. split; [|intros []]. intros I.
      apply I3, NIe in I. tauto.
    + apply wf_del, Wi.
    + apply tight_del; assumption.
    + rewrite dkeys_ddel by (apply (wf_keys _ Wi)). rewrite Ki. symmetry. exact FE.
    + intros a b n. rewrite asets_del by exact Wi.
      destruct (eqb_spec b u) as [P|P]; [|apply Ii]. split; [intros []|]. intros I.
      apply NIe in I. cbn in I. tauto.
  - assert (E1 : IG_in_edges g u = []).
    { unfold IG_in_edges. rewrite (proj2 (dget_None _ u)); [reflexivity|].
      rewrite (ir_keys _ _ _ R). exact Nu. }
    assert (E2 : IG_out_edges g u = []).
    { unfold IG_out_edges, G_out_edges. rewrite (proj2 (dget_None _ u)); [reflexivity|].
      rewrite (dr_keys _ _ _ (ir_d _ _ _ R)). exact Nu. }
    unfold IG_remove_vertex. rewrite E1. cbn [foreach]. rewrite E2. cbn [foreach].
    rewrite (proj2 (dmem_false _ u)); [reflexivity|].
    rewrite (dr_keys _ _ _ (ir_d _ _ _ R)). exact Nu.
Qed.

Lemma irep_clear g V E : irep g V E -> IG_clear g = (mkIGraph (mkGraph 0 []) [], Ok tt).
Proof.
  intros R. unfold IG_clear. set (g0 := mkIGraph _ _).
  pose (P := fun g' (rest : list nat) => last_vertex_id (ig_base g') = 0 /\ exists E', irep g' rest E').
  assert (R0 : irep g0 V E).
  { destruct R as [[] ? ? ? ?]; split; try assumption. split; assumption. }
  destruct (foreach_inv IG_remove_vertex P) with (l := V) (s := g0) as (g' & EQ & L & E' & R').
  - intros g1 x rest (L & E1 & R1).
    assert (H := irep_remove_vertex g1 _ _ x R1).
    assert (M : mem x (x :: rest) = true) by (apply mem_spec; left; reflexivity).
    rewrite M in H. destruct H as (g2 & L2 & EQ & R2). exists g2. split; [exact EQ|]. split; [congruence|].
    rewrite filter_remove_head in R2; [eauto|].
    rewrite <- (ir_keys _ _ _ R1). apply (wf_keys _ (ir_wf _ _ _ R1)).
  - split; [reflexivity|]. eauto.
  - unfold IG_vertices, G_vertices. rewrite (dr_keys _ _ _ (ir_d _ _ _ R0)), EQ.
    assert (K1 := dr_keys _ _ _ (ir_d _ _ _ R')). assert (K2 := ir_keys _ _ _ R').
    destruct g' as [[l a] b]. cbn in *.
    destruct a; [|discriminate]. destruct b; [|discriminate]. subst. reflexivity.
Qed.

Definition irep_full (g : igraph) (a : agraph) : Prop :=
  irep g (verts a) (es a) /\ last_vertex_id (ig_base g) = next_id a /\ counter_ok (next_id a) (verts a).

Lemma irep_add_vertex g V E : irep g V E -> ~ In (last_vertex_id (ig_base g)) V ->
  irep (fst (IG_add_vertex g)) (V ++ [last_vertex_id (ig_base g)]) E.
Proof.
  intros R NI. assert (NI' := NI). rewrite <- (ir_keys _ _ _ R) in NI'.
  assert (D := drep_add_vertex _ _ _ (ir_d _ _ _ R) NI).
  unfold IG_add_vertex, G_add_vertex in *. cbn [fst] in *. split; cbn [ig_base in_adjacencies].
  - exact D.
  - apply wf_new; [apply (ir_wf _ _ _ R)|exact NI'].
  - apply tight_new, (ir_tight _ _ _ R).
  - rewrite dkeys_dset_new by exact NI'. rewrite (ir_keys _ _ _ R). reflexivity.
  - intros u v n. rewrite asets_new by exact NI'. apply (ir_in _ _ _ R).
Qed.

Lemma irep_nil k : irep (mkIGraph (mkGraph k []) []) [] [].
Proof.
  split; [split|..]; cbn; try apply wf_adj_nil; try constructor; intros; try discriminate; tauto.
Qed.

Lemma i_step_ok g a op : irep_full g a ->
  (match op with OpAddEdge u v => In u (verts a) /\ In v (verts a) | _ => True end) ->
  irep_full (fst (IG_call g op)) (fst (i_step a op)) /\ snd (IG_call g op) = snd (i_step a op).
Proof.
  intros (R & L & C) Hop. destruct op as [|u v|e|u|]; cbn [IG_call i_step d_step].
  - assert (NI : ~ In (last_vertex_id (ig_base g)) (verts a)).
    { rewrite L. intros I. apply C in I. lia. }
    assert (H := irep_add_vertex g _ _ R NI). unfold IG_add_vertex, G_add_vertex in *. cbn in *.
    rewrite L in *. split; [|reflexivity]. split; [exact H|]. split; [reflexivity|].
    cbn. intros v I. apply in_app_iff in I. destruct I as [I|[<-|[]]]; [apply C in I|]; lia.
  - destruct Hop as [Iu Iv].
    destruct (irep_add_edge g _ _ u v R Iu Iv) as (g' & -> & L' & R').
    assert (M1 : mem u (verts a) = true) by (apply mem_spec; assumption).
    rewrite M1. cbn. split; [|reflexivity]. split; [exact R'|]. split; [cbn; congruence|exact C].
  - assert (H := irep_remove_edge g _ _ e R).
    destruct (between (source e) (target e) (es a)).
    + rewrite H. cbn. split; [|reflexivity]. split; [exact R|]. split; assumption.
    + destruct H as (g' & -> & L' & R'). cbn. split; [|reflexivity]. split; [exact R'|].
      split; [cbn; congruence|exact C].
  - assert (H := irep_remove_vertex g _ _ u R).
    destruct (mem u (verts a)).
    + destruct H as (g' & L' & -> & R'); cbn. split; [|reflexivity].
      split; [exact R'|]. split; [cbn; congruence|]. apply counter_filter, C.
    + rewrite H. cbn. split; [|reflexivity]. split; [exact R|]. split; assumption.
  - rewrite (irep_clear g _ _ R). cbn. split; [|reflexivity].
    split; [apply irep_nil|split; [reflexivity|intros ? []]].
Qed.

Lemma IG_init_rep n : irep_full (IG_init n) (a_init n).
Proof.
  unfold IG_init. enough (H : forall k g E, irep g (seq 0 k) E -> last_vertex_id (ig_base g) = k ->
    irep (IG_add_vertices n g) (seq 0 (k + n)) E /\ last_vertex_id (ig_base (IG_add_vertices n g)) = k + n).
  { destruct (H 0 _ _ (irep_nil 0) eq_refl) as (R & L). split; [exact R|]. split; [exact L|].
    intros v I. apply in_seq in I. cbn. lia. }
  induction n as [|n IH]; intros k g E R L; cbn [IG_add_vertices].
  - rewrite Nat.add_0_r. auto.
  - replace (k + S n) with (S k + n) by lia. apply IH.
    + rewrite seq_S. cbn [Nat.add]. rewrite <- L at 2. apply irep_add_vertex; [exact R|].
      rewrite L. intros I. apply in_seq in I. lia.
    + unfold IG_add_vertex, G_add_vertex. cbn. congruence.
Qed.

Lemma incidence_run n ops : closed_prog i_step (a_init n) ops ->
  irep_full (fst (run IG_call (IG_init n) ops)) (fst (run i_step (a_init n) ops)) /\
  snd (run IG_call (IG_init n) ops) = snd (run i_step (a_init n) ops).
Proof. apply (run_refine_closed IG_call i_step irep_full i_step_ok), IG_init_rep. Qed.

Theorem incidence_refinement : forall n ops, closed_prog i_step (a_init n) ops ->
  let '(g, outs) := run IG_call (IG_init n) ops in
  let '(a, outs') := run i_step (a_init n) ops in
  outs = outs' /\
  IG_vertices g = verts a /\
  Permutation (IG_edges g) (es a) /\
  (forall u, Permutation (IG_out_edges g u) (a_out a u)) /\
  (forall u, Permutation (IG_in_edges g u) (a_in a u)) /\
  (forall u, IG_in_degree g u = length (a_in a u)) /\
  (forall v, Permutation (IG_in_edges g v) (filter (fun e => target e =? v) (IG_edges g))).
Proof.
  intros n ops CP. destruct (incidence_run n ops CP) as (R & O).
  destruct (run IG_call (IG_init n) ops) as [g outs], (run i_step (a_init n) ops) as [a outs'].
  cbn in R, O. destruct R as (R & L & C).
  assert (PE := drep_edges _ _ _ (ir_d _ _ _ R)). assert (PO := fun u => drep_out _ _ _ u (ir_d _ _ _ R)).
  assert (PI := fun u => irep_in _ _ _ u R).
  split; [exact O|]. split; [apply (dr_keys _ _ _ (ir_d _ _ _ R))|]. split; [exact PE|].
  split; [exact PO|]. split; [exact PI|]. split; [intros u; apply Permutation_length, PI|].
  intros v. rewrite (PI v). apply filter_perm. symmetry. exact PE.
Qed.
