(** Proofs about reverse_graph interleaved with the other methods. *)
From Coq Require Import Permutation.
From Verif Require Import Graph GraphSpec GraphProofs GraphProofs2 Reverse ReverseSpec Base BaseProofs.

(** The attributes after an odd number of calls. *)
Definition back : attrs := attrs_reverse attrs_init.

Lemma rrep_remove_vertex g V E u : irep g V E ->
  if mem u V
  then exists g', last_vertex_id (ig_base g') = last_vertex_id (ig_base g) /\
         R_remove_vertex back g u = (g', Ok tt) /\
         irep g' (filter (fun v => negb (v =? u)) V) (not_incident u E)
  else R_remove_vertex back g u = (g, Raise KeyError).
Proof.
  intros R. destruct (mem_reflect u V) as [Iu|Nu].
  - assert (PI := drep_out _ _ _ u (ir_d _ _ _ R)).
    destruct (irep_remove_list g V E (IG_out_edges g u) R) as (g1 & EQ1 & L1 & E1 & R1 & M1).
    { apply NoDup_out_edges, (dr_wf _ _ _ (ir_d _ _ _ R)). }
    { intros e I. eapply Permutation_in in I; [|exact PI]. apply filter_In in I. tauto. }
    assert (PO := irep_in _ _ _ u R1).
    destruct (irep_remove_list g1 V E1 (IG_in_edges g1 u) R1) as (g2 & EQ2 & L2 & E2 & R2 & M2).
    { apply NoDup_in_edges, (ir_wf _ _ _ R1). }
    { intros e I. eapply Permutation_in in I; [|exact PO]. apply filter_In in I. tauto. }
    unfold R_remove_vertex; cbn [back attrs_reverse attrs_init at_in at_out IG_call_star]. rewrite EQ1, EQ2.
    assert (M1' : forall e, In e E1 <-> In e E /\ source e <> u).
    { intros e. rewrite M1. split; intros (A & B); (split; [exact A|]); intros C; apply B.
      - eapply Permutation_in; [symmetry; exact PI|]. apply filter_In. rewrite Nat.eqb_eq. auto.
      - eapply Permutation_in in C; [|exact PI]. apply filter_In in C. rewrite Nat.eqb_eq in C. tauto. }
    assert (M2' : forall e, In e E2 <-> In e E /\ source e <> u /\ target e <> u).
    { intros e. rewrite M2, M1'. split.
      - intros ((A & B) & C). split; [exact A|]. split; [exact B|]. intros D. apply C.
        eapply Permutation_in; [symmetry; exact PO|]. apply filter_In. rewrite Nat.eqb_eq, M1'. auto.
      - intros (A & B & C). split; [auto|]. intros D. apply C.
        eapply Permutation_in in D; [|exact PO]. apply filter_In in D. rewrite Nat.eqb_eq in D. tauto. }
    assert (R3 : irep g2 V (not_incident u E)).
    { eapply irep_ext; [exact R2|apply NoDup_filter, (dr_nd _ _ _ (ir_d _ _ _ R))|].
      intros e. unfold not_incident. rewrite filter_In, M2', negb_true_iff, orb_false_iff, !Nat.eqb_neq. tauto. }
    assert (NIe : forall e, In e (not_incident u E) -> source e <> u /\ target e <> u).
    { intros e I. unfold not_incident in I. apply filter_In in I. destruct I as [_ I].
      rewrite negb_true_iff, orb_false_iff, !Nat.eqb_neq in I. exact I. }
    assert (D1 : dmem (adjacencies (ig_base g2)) u = true).
    { apply dmem_spec. rewrite (dr_keys _ _ _ (ir_d _ _ _ R3)). exact Iu. }
    assert (D2 : dmem (in_adjacencies g2) u = true).
    { apply dmem_spec. rewrite (ir_keys _ _ _ R3). exact Iu. }
    rewrite D1, D2. eexists. split; [|split; [reflexivity|]]; [cbn; congruence|].
    assert (FE : filter (fun v => negb (v =? u)) V = srem u V).
    { unfold srem. apply filter_ext. intros x. f_equal.
      destruct (eqb_spec u x), (Nat.eqb_spec x u); congruence. }
    destruct R3 as [[W3 T3 K3 N3 I3] Wi Ti Ki Ii]. split; [split|..]; cbn [ig_base in_adjacencies adjacencies].
    + apply wf_del, W3.
    + apply tight_del; assumption.
    + rewrite dkeys_ddel by (apply (wf_keys _ W3)). rewrite K3. symmetry. exact FE.
    + exact N3.
    + intros e. rewrite asets_del by exact W3. rewrite I3.
      destruct (eqb_spec (source e) u) as [P|P]; [|tauto]. split; [|intros []]. intros I.
      apply I3, NIe in I. tauto.
    + apply wf_del, Wi.
    + apply tight_del; assumption.
    + rewrite dkeys_ddel by (apply (wf_keys _ Wi)). rewrite Ki. symmetry. exact FE.
    + intros a b n. rewrite asets_del by exact Wi.
      destruct (eqb_spec b u) as [P|P]; [|apply Ii]. split; [intros []|]. intros I.
      apply NIe in I. cbn in I. tauto.
  - assert (E1 : IG_in_edges g u = []).
    { unfold IG_in_edges. rewrite (proj2 (dget_None _ u)); [reflexivity|].
      rewrite (ir_keys _ _ _ R). exact Nu. }
    assert (E2 : IG_out_edges g u = []).
    { unfold IG_out_edges, G_out_edges. rewrite (proj2 (dget_None _ u)); [reflexivity|].
      rewrite (dr_keys _ _ _ (ir_d _ _ _ R)). exact Nu. }
    unfold R_remove_vertex; cbn [back attrs_reverse attrs_init at_in at_out IG_call_star]. rewrite E2. cbn [foreach]. rewrite E1. cbn [foreach].
    rewrite (proj2 (dmem_false _ u)); [reflexivity|].
    rewrite (dr_keys _ _ _ (ir_d _ _ _ R)). exact Nu.
Qed.

Lemma rrep_clear g V E : irep g V E -> R_clear back g = (mkIGraph (mkGraph 0 []) [], Ok tt).
Proof.
  intros R. unfold R_clear. set (g0 := mkIGraph _ _).
  pose (P := fun g' (rest : list nat) => last_vertex_id (ig_base g') = 0 /\ exists E', irep g' rest E').
  assert (R0 : irep g0 V E).
  { destruct R as [[] ? ? ? ?]; split; try assumption. split; assumption. }
  destruct (foreach_inv (R_remove_vertex back) P) with (l := V) (s := g0) as (g' & EQ & L & E' & R').
  - intros g1 x rest (L & E1 & R1).
    assert (H := rrep_remove_vertex g1 _ _ x R1).
    assert (M : mem x (x :: rest) = true) by (apply mem_spec; left; reflexivity).
    rewrite M in H. destruct H as (g2 & L2 & EQ & R2). exists g2. split; [exact EQ|]. split; [congruence|].
    rewrite filter_remove_head in R2; [eauto|].
    rewrite <- (ir_keys _ _ _ R1). apply (wf_keys _ (ir_wf _ _ _ R1)).
  - split; [reflexivity|]. eauto.
  - unfold IG_vertices, G_vertices. rewrite (dr_keys _ _ _ (ir_d _ _ _ R0)), EQ.
    assert (K1 := dr_keys _ _ _ (ir_d _ _ _ R')). assert (K2 := ir_keys _ _ _ R').
    destruct g' as [[l a] b]. cbn in *.
    destruct a; [|discriminate]. destruct b; [|discriminate]. subst. reflexivity.
Qed.


Definition at_of (flipped : bool) : attrs := if flipped then back else attrs_init.
Definition rrep (o : robj) (s : agraph * bool) : Prop := irep_full (ro_graph o) (fst s) /\ ro_attrs o = at_of (snd s).

Lemma r_step_ok o s op : rrep o s ->
  (match op with ROp (OpAddEdge u v) => In u (verts (fst s)) /\ In v (verts (fst s)) | _ => True end) ->
  rrep (fst (R_call o op)) (fst (r_step s op)) /\ snd (R_call o op) = snd (r_step s op).
Proof.
  destruct o as [g at_], s as [a f]. intros [R A] C. cbn [ro_graph ro_attrs fst snd] in *. subst at_.
  destruct op as [op|]; [|split; [|reflexivity]; split; [exact R|]; destruct f; reflexivity].
  assert (K := i_step_ok g a op R C).
  destruct f.
  - destruct op as [|u v|e|u|].
    + cbn [R_call r_step ro_graph ro_attrs]. destruct (IG_call g OpAddVertex). split; [split; [apply K|reflexivity]|apply K].
    + cbn [R_call r_step ro_graph ro_attrs]. destruct (IG_call g (OpAddEdge u v)). split; [split; [apply K|reflexivity]|apply K].
    + cbn [R_call r_step ro_graph ro_attrs]. destruct (IG_call g (OpRemoveEdge e)). split; [split; [apply K|reflexivity]|apply K].
    + clear K. destruct R as (R & L & C0). cbn [R_call r_step ro_graph ro_attrs at_of fst snd i_step].
      assert (H := rrep_remove_vertex g _ _ u R). destruct (mem u (verts a)).
      * destruct H as (g' & L' & -> & R'). cbn. split; [|reflexivity]. split; [|reflexivity].
        split; [exact R'|]. split; [cbn; congruence|]. apply counter_filter, C0.
      * rewrite H. cbn. split; [|reflexivity]. split; [|reflexivity]. split; [exact R|]. split; assumption.
    + clear K. destruct R as (R & L & C0). cbn [R_call r_step ro_graph ro_attrs at_of fst snd i_step d_step].
      rewrite (rrep_clear g _ _ R). cbn. split; [|reflexivity]. split; [|reflexivity].
      split; [apply irep_nil|split; [reflexivity|intros ? []]].
  - assert (E : R_call (RObj g attrs_init) (ROp op) = (RObj (fst (IG_call g op)) attrs_init, snd (IG_call g op))).
    { destruct op as [|u v|e|u|]; cbn [R_call ro_graph ro_attrs].
      1-3: match goal with |- context [IG_call ?g ?o] => destruct (IG_call g o); reflexivity end.
      - change (R_remove_vertex attrs_init g u) with (IG_remove_vertex g u). cbn [IG_call]. destruct (IG_remove_vertex g u); reflexivity.
      - change (R_clear attrs_init g) with (IG_clear g). cbn [IG_call]. destruct (IG_clear g); reflexivity. }
    cbn [at_of]. rewrite E. split; [split; [apply K|reflexivity]|apply K].
Qed.

Lemma r_run ops : forall o s, rrep o s -> r_closed s ops ->
  rrep (fst (rrun R_call o ops)) (fst (rrun r_step s ops)) /\ snd (rrun R_call o ops) = snd (rrun r_step s ops).
Proof.
  induction ops as [|op ops IH]; intros o s R; cbn [rrun r_closed]; [cbn; tauto|]. intros (C & CS).
  destruct (r_step_ok o s op R C) as (R1 & O1).
  destruct (R_call o op) as [o1 x1], (r_step s op) as [s1 x2]. cbn [fst snd] in *.
  destruct (IH o1 s1 R1 CS) as (R2 & O2).
  destruct (rrun R_call o1 ops), (rrun r_step s1 ops). cbn [fst snd] in *. split; [exact R2|congruence].
Qed.

Lemma r_init n : rrep (R_init n) (a_init n, false).
Proof. split; [apply IG_init_rep|reflexivity]. Qed.

Lemma only_seen f u v E :
  filter (fun e => seen_target f e =? v) (filter (fun e => seen_source f e =? u) E) =
  filter (fun e => (seen_source f e =? u) && (seen_target f e =? v)) E.
Proof.
  induction E as [|e E IH]; cbn; [reflexivity|].
  destruct (seen_source f e =? u); cbn; [|exact IH]. destruct (seen_target f e =? v); cbn; rewrite IH; reflexivity.
Qed.

Lemma rrep_out o a f u : rrep o (a, f) -> Permutation (R_out_edges o u) (filter (fun e => seen_source f e =? u) (es a)).
Proof.
  intros [(R & _) A]. unfold R_out_edges. rewrite A. cbn [fst snd] in *. destruct f; cbn.
  - apply (irep_in _ _ _ u R).
  - apply (drep_out _ _ _ u (ir_d _ _ _ R)).
Qed.
Lemma rrep_in o a f u : rrep o (a, f) -> Permutation (R_in_edges o u) (filter (fun e => seen_target f e =? u) (es a)).
Proof.
  intros [(R & _) A]. unfold R_in_edges. rewrite A. cbn [fst snd] in *. destruct f; cbn.
  - apply (drep_out _ _ _ u (ir_d _ _ _ R)).
  - apply (irep_in _ _ _ u R).
Qed.
Lemma rrep_source o a f e : rrep o (a, f) -> R_source o e = seen_source f e /\ R_target o e = seen_target f e.
Proof. intros [_ A]. unfold R_source, R_target. rewrite A. destruct f; auto. Qed.
Lemma rrep_edge o a f u v : rrep o (a, f) ->
  R_edge o u v = only (filter (fun e => (seen_source f e =? u) && (seen_target f e =? v)) (es a)).
Proof.
  intros R. unfold R_edge.
  rewrite (filter_ext _ (fun e => seen_target f e =? v)) by (intros e; f_equal; apply (rrep_source _ _ _ e R)).
  assert (P := rrep_out _ _ _ u R). rewrite sof_id.
  - rewrite <- only_seen.
    change (only (filter (fun e => seen_target f e =? v) (R_out_edges o u)) =
            only (filter (fun e => seen_target f e =? v) (filter (fun e => seen_source f e =? u) (es a)))).
    apply only_perm, filter_perm, P.
  - apply NoDup_filter. eapply Permutation_NoDup; [symmetry; exact P|]. apply NoDup_filter.
    destruct R as [(R & _) _]. apply (dr_nd _ _ _ (ir_d _ _ _ R)).
Qed.

Lemma r_step_plain ops : forall s,
  fst (fst (rrun r_step s ops)) = fst (run i_step (fst s) (plain_ops ops)) /\
  plain_outs ops (snd (rrun r_step s ops)) = snd (run i_step (fst s) (plain_ops ops)).
Proof.
  induction ops as [|[op|] ops IH]; intros s; cbn [rrun plain_ops flat_map]; [auto| |].
  - cbn [r_step app run]. specialize (IH (fst (i_step (fst s) op), snd s)). cbn [fst] in IH. fold (plain_ops ops).
    destruct (i_step (fst s) op) as [a1 x]. cbn [fst snd] in *.
    destruct (rrun r_step (a1, snd s) ops), (run i_step a1 (plain_ops ops)). cbn [fst snd plain_outs] in *.
    destruct IH as [-> ->]. auto.
  - cbn [r_step app]. specialize (IH (fst s, negb (snd s))). cbn [fst] in IH. fold (plain_ops ops).
    destruct (rrun r_step (fst s, negb (snd s)) ops). cbn [fst snd plain_outs] in *. exact IH.
Qed.
Lemma r_closed_plain ops : forall s, r_closed s ops -> closed_prog i_step (fst s) (plain_ops ops).
Proof.
  induction ops as [|[op|] ops IH]; intros s; cbn [r_closed plain_ops flat_map app closed_prog]; [auto| |].
  - intros [C CS]. split; [exact C|]. exact (IH _ CS).
  - intros [_ CS]. exact (IH _ CS).
Qed.

(** *** Undirected graphs *)
Lemma UR_out_diverges g u : forall fuel, UR_out_edges fuel back g u = None.
Proof. unfold UR_out_edges. induction fuel as [|fuel IH]; [reflexivity|]. exact IH. Qed.

Lemma UR_remove_edge_half g V E e : urep g V E -> In (norm e) E -> source e <> target e ->
  exists g', UR_remove_edge back g e = (g', Raise KeyError) /\
    (forall x, In x (G_edges g') <-> In x (G_edges g) /\ x <> e).
Proof.
  intros R I N. unfold UR_remove_edge, G_remove_edge.
  assert (IA : In (distinguisher e) (asets (adjacencies g) (source e) (target e))).
  { apply (ur_in _ _ _ R). destruct e; exact I. }
  destruct (adj_remove_in _ _ _ _ (ur_wf _ _ _ R) IA) as (m & -> & W & _ & _ & H).
  cbn [adjacencies call_end back attrs_reverse attrs_init at_source at_target last_vertex_id].
  rewrite (proj2 (Nat.eqb_neq (target e) (source e))) by congruence.
  exists (mkGraph (last_vertex_id g) m). split.
  - assert (NM : ~ In (distinguisher e) (asets m (source e) (target e))) by (rewrite H; intros [_ K]; apply K; reflexivity).
    unfold asets in NM. destruct (dget m (source e)) as [d|]; [|reflexivity]. destruct (dget d (target e)) as [s|]; [|reflexivity].
    rewrite (proj2 (mem_false (distinguisher e) s)) by exact NM. reflexivity.
  - intros x. rewrite (In_edges _ x) by exact W. rewrite (In_edges _ x) by apply (ur_wf _ _ _ R). cbn [adjacencies]. rewrite H.
    split; intros [A B]; (split; [exact A|]).
    + intros ->. apply B. reflexivity.
    + intros C. apply B. destruct x, e. cbn in C. congruence.
Qed.
