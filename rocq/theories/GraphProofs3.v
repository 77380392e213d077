(** Consequences of the refinements: fresh edges, vertex removal, vertex identifiers. *)
From Verif Require Import Base BaseProofs Graph GraphSpec GraphProofs GraphProofs2.

Lemma directed_run n ops :
  drep_full (fst (run DG_call (G_init n) ops)) (fst (run d_step (a_init n) ops)) /\
  snd (run DG_call (G_init n) ops) = snd (run d_step (a_init n) ops).
Proof. apply (run_refine DG_call d_step drep_full d_step_ok), G_init_rep. Qed.

Lemma directed_add_edge_fresh n ops u v :
  let g := fst (run DG_call (G_init n) ops) in
  In u (G_vertices g) ->
  exists k g', G_add_edge g u v = (g', Ok (Edge u v k, true)) /\
    ~ In (Edge u v k) (G_edges g) /\
    Permutation (G_edges g') (Edge u v k :: G_edges g) /\
    G_vertices g' = G_vertices g.
Proof.
  intros g Iu. destruct (directed_run n ops) as ((R & _) & _). fold g in R.
  set (a := fst (run d_step (a_init n) ops)) in *. clearbody a g.
  unfold G_vertices in Iu. rewrite (dr_keys _ _ _ R) in Iu.
  destruct (drep_add_edge g _ _ u v R Iu) as (g' & EQ & _ & R').
  assert (P := drep_edges _ _ _ R). assert (P' := drep_edges _ _ _ R').
  set (e := Edge u v (fresh (between u v (es a)))) in *.
  exists (fresh (between u v (es a))), g'. split; [exact EQ|]. fold e.
  split; [|split].
  - intros I. eapply Permutation_in in I; [|exact P]. assert (N := dr_nd _ _ _ R').
    apply NoDup_app_inv in N. destruct N as (_ & _ & D). apply (D e I). left. reflexivity.
  - rewrite P', P. symmetry. apply Permutation_cons_append.
  - unfold G_vertices. rewrite (dr_keys _ _ _ R), (dr_keys _ _ _ R'). reflexivity.
Qed.

Lemma G_add_edge_raise g u v g' ex : G_add_edge g u v = (g', Raise ex) ->
  g' = g /\ ex = KeyError /\ ~ In u (G_vertices g).
Proof.
  unfold G_add_edge. destruct (dget (adjacencies g) u) as [d|] eqn:E.
  - destruct (dget d v); discriminate.
  - intros Q. injection Q as <- <-. apply dget_None in E. auto.
Qed.

(** Exact failure conditions in the two other classes. *)
Lemma UG_add_edge_raise g u v g' ex : UG_add_edge g u v = (g', Raise ex) ->
  ex = KeyError /\
  ((~ In (Nat.min u v) (G_vertices g) /\ g' = g) \/
   (In (Nat.min u v) (G_vertices g) /\ ~ In (Nat.max u v) (G_vertices g) /\
    g' = fst (G_add_edge g (Nat.min u v) (Nat.max u v)))).
Proof.
  unfold UG_add_edge. set (a := Nat.min u v). set (b := Nat.max u v).
  destruct (G_add_edge g a b) as [g1 [[e add]|ex1]] eqn:EQ.
  - unfold G_add_edge in EQ. destruct (dget (adjacencies g) a) as [d|] eqn:E; [|discriminate].
    destruct (dget (adjacencies g1) b) as [dv|] eqn:E1; [discriminate|].
    intros Q. injection Q as <- <-. split; [reflexivity|]. right.
    split; [eapply dget_Some_key; exact E|]. split; [|reflexivity]. intros I.
    apply dget_None in E1. apply E1.
    destruct (dget d b); injection EQ as <- _; cbn [adjacencies];
      (erewrite dkeys_dset_stored by exact E); exact I.
  - intros Q. injection Q as <- <-. apply G_add_edge_raise in EQ. tauto.
Qed.

Lemma IG_add_edge_raise g u v g' ex : IG_add_edge g u v = (g', Raise ex) ->
  ex = KeyError /\
  ((~ In u (IG_vertices g) /\ g' = g) \/
   (In u (IG_vertices g) /\ ~ In v (dkeys (in_adjacencies g)) /\
    g' = mkIGraph (fst (G_add_edge (ig_base g) u v)) (in_adjacencies g))).
Proof.
  unfold IG_add_edge.
  destruct (G_add_edge (ig_base g) u v) as [g1 [[e add]|ex1]] eqn:EQ.
  - destruct (dget (in_adjacencies g) v) as [d|] eqn:E; [discriminate|].
    intros Q. injection Q as <- <-. split; [reflexivity|]. right.
    unfold G_add_edge in EQ. destruct (dget (adjacencies (ig_base g)) u) as [d|] eqn:E0; [|discriminate].
    split; [eapply dget_Some_key; exact E0|]. split; [apply dget_None; exact E|reflexivity].
  - intros Q. injection Q as <- <-. apply G_add_edge_raise in EQ. destruct EQ as (-> & -> & N).
    split; [reflexivity|]. left. split; [exact N|]. destruct g; reflexivity.
Qed.

(** In the sense of C05: for reachable closed graphs a failing call is harmless iff the first
    endpoint looked up is the missing one. *)
Lemma UG_add_edge_raise_ok n ops u v g' ex : closed_prog u_step (a_init n) ops ->
  let g := fst (run UG_call (G_init n) ops) in
  UG_add_edge g u v = (g', Raise ex) -> ~ In (Nat.min u v) (G_vertices g) -> g' = g.
Proof.
  intros _ g H N. apply UG_add_edge_raise in H. tauto.
Qed.

Lemma In_not_incident u E e : In e (not_incident u E) <-> In e E /\ source e <> u /\ target e <> u.
Proof. unfold not_incident. rewrite filter_In, negb_true_iff, orb_false_iff, !Nat.eqb_neq. tauto. Qed.

Lemma directed_remove_vertex_exact n ops u :
  let g := fst (run DG_call (G_init n) ops) in
  In u (G_vertices g) ->
  exists g', DG_remove_vertex g u = (g', Ok tt) /\
    G_vertices g' = filter (fun v => negb (v =? u)) (G_vertices g) /\
    Permutation (G_edges g') (not_incident u (G_edges g)).
Proof.
  intros g Iu. destruct (directed_run n ops) as ((R & _) & _). fold g in R.
  set (a := fst (run d_step (a_init n) ops)) in *. clearbody a g.
  unfold G_vertices in *. rewrite (dr_keys _ _ _ R) in *.
  destruct (drep_remove_vertex g _ _ u R) as (g' & _ & H).
  apply mem_spec in Iu. rewrite Iu in H. destruct H as (EQ & R').
  exists g'. split; [exact EQ|]. split; [apply (dr_keys _ _ _ R')|].
  rewrite (drep_edges _ _ _ R'). apply filter_perm. symmetry. apply (drep_edges _ _ _ R).
Qed.

Lemma undirected_remove_vertex_exact n ops u : closed_prog u_step (a_init n) ops ->
  let g := fst (run UG_call (G_init n) ops) in
  In u (G_vertices g) ->
  exists g', UG_remove_vertex g u = (g', Ok tt) /\
    G_vertices g' = filter (fun v => negb (v =? u)) (G_vertices g) /\
    Permutation (UG_edges g') (not_incident u (UG_edges g)).
Proof.
  intros CP g Iu. destruct (undirected_run n ops CP) as ((R & _) & _). fold g in R.
  set (a := fst (run u_step (a_init n) ops)) in *. clearbody a g.
  unfold G_vertices in *. rewrite (ur_keys _ _ _ R) in *.
  assert (H := urep_remove_vertex g _ _ u R).
  apply mem_spec in Iu. rewrite Iu in H. destruct H as (g' & _ & EQ & R').
  exists g'. split; [exact EQ|]. split; [apply (ur_keys _ _ _ R')|].
  rewrite (urep_edges _ _ _ R'). apply filter_perm. symmetry. apply (urep_edges _ _ _ R).
Qed.

Lemma incidence_remove_vertex_exact n ops u : closed_prog i_step (a_init n) ops ->
  let g := fst (run IG_call (IG_init n) ops) in
  In u (IG_vertices g) ->
  exists g', IG_remove_vertex g u = (g', Ok tt) /\
    IG_vertices g' = filter (fun v => negb (v =? u)) (IG_vertices g) /\
    Permutation (IG_edges g') (not_incident u (IG_edges g)) /\
    (forall v, Permutation (IG_in_edges g' v) (filter (fun e => target e =? v) (IG_edges g'))).
Proof.
  intros CP g Iu. destruct (incidence_run n ops CP) as ((R & _) & _). fold g in R.
  set (a := fst (run i_step (a_init n) ops)) in *. clearbody a g.
  unfold IG_vertices, G_vertices in *. rewrite (dr_keys _ _ _ (ir_d _ _ _ R)) in *.
  assert (H := irep_remove_vertex g _ _ u R).
  apply mem_spec in Iu. rewrite Iu in H. destruct H as (g' & _ & EQ & R').
  exists g'. split; [exact EQ|]. split; [apply (dr_keys _ _ _ (ir_d _ _ _ R'))|].
  split.
  - unfold IG_edges. rewrite (drep_edges _ _ _ (ir_d _ _ _ R')). apply filter_perm.
    symmetry. apply (drep_edges _ _ _ (ir_d _ _ _ R)).
  - intros v. rewrite (irep_in _ _ _ v R'). apply filter_perm. symmetry.
    apply (drep_edges _ _ _ (ir_d _ _ _ R')).
Qed.

(** ** Identifiers *)

Definition counts (step : agraph -> gop -> agraph * gout) : Prop := forall a op,
  op <> OpClear ->
  next_id (fst (step a op)) = (match op with OpAddVertex => S (next_id a) | _ => next_id a end) /\
  vertex_outs [snd (step a op)] = (match op with OpAddVertex => [next_id a] | _ => [] end).

Lemma counts_d : counts d_step.
Proof.
  intros a [|u v|e|u|] N; cbn; try tauto.
  - destruct (mem u (verts a)); auto.
  - destruct (between _ _ _); auto.
  - destruct (mem u (verts a)); auto.
Qed.
Lemma counts_i : counts i_step.
Proof.
  intros a op N. destruct op; try (apply counts_d; exact N).
  cbn. destruct (mem u (verts a)); auto.
Qed.
Lemma counts_u : counts u_step.
Proof.
  intros a [|u v|e|u|] N; cbn; try tauto.
  - destruct (_ && _); auto.
  - destruct (mem _ _); [auto|]. destruct (_ && _); auto.
  - destruct (mem u (verts a)); auto.
Qed.

Lemma vertex_outs_cons o outs : vertex_outs (o :: outs) = vertex_outs [o] ++ vertex_outs outs.
Proof. unfold vertex_outs. cbn. rewrite app_nil_r. reflexivity. Qed.

Lemma run_ids step : counts step -> forall ops a, ~ In OpClear ops ->
  vertex_outs (snd (run step a ops)) = seq (next_id a) (count_add_vertex ops).
Proof.
  intros C. induction ops as [|op ops IH]; intros a N; cbn [run]; [reflexivity|].
  destruct (C a op) as (C1 & C2); [intros ->; apply N; left; reflexivity|].
  destruct (step a op) as [a1 o1]. cbn [fst snd] in *.
  assert (N' : ~ In OpClear ops) by (intros I; apply N; right; exact I).
  specialize (IH a1 N'). destruct (run step a1 ops) as [a2 os]. cbn [snd] in *.
  rewrite vertex_outs_cons, IH, C1, C2. unfold count_add_vertex. destruct op; reflexivity.
Qed.

Lemma directed_ids n ops : ~ In OpClear ops ->
  vertex_outs (snd (run DG_call (G_init n) ops)) = seq n (count_add_vertex ops).
Proof. intros N. rewrite (proj2 (directed_run n ops)). apply (run_ids _ counts_d _ (a_init n) N). Qed.
Lemma undirected_ids n ops : closed_prog u_step (a_init n) ops -> ~ In OpClear ops ->
  vertex_outs (snd (run UG_call (G_init n) ops)) = seq n (count_add_vertex ops).
Proof. intros C N. rewrite (proj2 (undirected_run n ops C)). apply (run_ids _ counts_u _ (a_init n) N). Qed.
Lemma incidence_ids n ops : closed_prog i_step (a_init n) ops -> ~ In OpClear ops ->
  vertex_outs (snd (run IG_call (IG_init n) ops)) = seq n (count_add_vertex ops).
Proof. intros C N. rewrite (proj2 (incidence_run n ops C)). apply (run_ids _ counts_i _ (a_init n) N). Qed.

Lemma directed_add_vertex_new n ops :
  let g := fst (run DG_call (G_init n) ops) in
  exists u g', G_add_vertex g = (g', Ok u) /\ ~ In u (G_vertices g) /\
    G_vertices g' = G_vertices g ++ [u] /\ Permutation (G_edges g') (G_edges g) /\
    DG_clear g = (G_init 0, Ok tt).
Proof.
  intros g. destruct (directed_run n ops) as ((R & L & C) & _). fold g in R, L.
  set (a := fst (run d_step (a_init n) ops)) in *. clearbody a g.
  assert (NI : ~ In (last_vertex_id g) (verts a)) by (rewrite L; intros I; apply C in I; lia).
  assert (R' := drep_add_vertex g _ _ R NI).
  eexists. eexists. split; [reflexivity|]. split; [unfold G_vertices; rewrite (dr_keys _ _ _ R); exact NI|].
  split; [|split].
  - unfold G_vertices. rewrite (dr_keys _ _ _ R). apply (dr_keys _ _ _ R').
  - etransitivity; [apply (drep_edges _ _ _ R')|]. symmetry. apply (drep_edges _ _ _ R).
  - apply (drep_clear _ _ _ R).
Qed.

Lemma undirected_add_vertex_new n ops : closed_prog u_step (a_init n) ops ->
  let g := fst (run UG_call (G_init n) ops) in
  exists u g', G_add_vertex g = (g', Ok u) /\ ~ In u (G_vertices g) /\
    G_vertices g' = G_vertices g ++ [u] /\ Permutation (UG_edges g') (UG_edges g) /\
    UG_clear g = (G_init 0, Ok tt).
Proof.
  intros CP g. destruct (undirected_run n ops CP) as ((R & L & C) & _). fold g in R, L.
  set (a := fst (run u_step (a_init n) ops)) in *. clearbody a g.
  assert (NI : ~ In (last_vertex_id g) (verts a)) by (rewrite L; intros I; apply C in I; lia).
  assert (R' := urep_add_vertex g _ _ R NI).
  eexists. eexists. split; [reflexivity|]. split; [unfold G_vertices; rewrite (ur_keys _ _ _ R); exact NI|].
  split; [|split].
  - unfold G_vertices. rewrite (ur_keys _ _ _ R). apply (ur_keys _ _ _ R').
  - etransitivity; [apply (urep_edges _ _ _ R')|]. symmetry. apply (urep_edges _ _ _ R).
  - apply (urep_clear _ _ _ R).
Qed.

Lemma incidence_add_vertex_new n ops : closed_prog i_step (a_init n) ops ->
  let g := fst (run IG_call (IG_init n) ops) in
  exists u g', IG_add_vertex g = (g', Ok u) /\ ~ In u (IG_vertices g) /\
    IG_vertices g' = IG_vertices g ++ [u] /\ Permutation (IG_edges g') (IG_edges g) /\
    IG_clear g = (IG_init 0, Ok tt).
Proof.
  intros CP g. destruct (incidence_run n ops CP) as ((R & L & C) & _). fold g in R, L.
  set (a := fst (run i_step (a_init n) ops)) in *. clearbody a g.
  assert (NI : ~ In (last_vertex_id (ig_base g)) (verts a)) by (rewrite L; intros I; apply C in I; lia).
  assert (R' := irep_add_vertex g _ _ R NI).
  eexists. eexists. split; [reflexivity|].
  split; [unfold IG_vertices, G_vertices; rewrite (dr_keys _ _ _ (ir_d _ _ _ R)); exact NI|].
  split; [|split].
  - unfold IG_vertices, G_vertices. rewrite (dr_keys _ _ _ (ir_d _ _ _ R)). apply (dr_keys _ _ _ (ir_d _ _ _ R')).
  - unfold IG_edges. etransitivity; [apply (drep_edges _ _ _ (ir_d _ _ _ R'))|].
    symmetry. apply (drep_edges _ _ _ (ir_d _ _ _ R)).
  - apply (irep_clear _ _ _ R).
Qed.
