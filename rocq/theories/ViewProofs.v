(** Proofs about views, reverse_graph and reverse_dict. *)
From Coq Require Import Relations.
From Verif Require Import Base BaseProofs Graph GraphSpec GraphProofs GraphProofs2 View.

Section View.
  Context {E : Type}.
  Implicit Types w : @view E.

  Lemma view_keeps_spec w e : view_keeps w e = true <->
    erel w e = true /\ vrel w (api_source (vg w) e) = true /\ vrel w (api_target (vg w) e) = true.
  Proof. unfold view_keeps. rewrite !andb_true_iff. tauto. Qed.

  Lemma view_sound w :
    (forall u, In u (view_vertices w) <-> In u (api_vertices (vg w)) /\ vrel w u = true) /\
    (forall e, In e (view_edges w) <-> In e (api_edges (vg w)) /\ erel w e = true /\
        vrel w (api_source (vg w) e) = true /\ vrel w (api_target (vg w) e) = true) /\
    (forall u e, In e (view_out_edges w u) <-> In e (api_out_edges (vg w) u) /\ erel w e = true /\
        vrel w (api_source (vg w) e) = true /\ vrel w (api_target (vg w) e) = true) /\
    (forall u e, In e (view_in_edges w u) <-> In e (api_in_edges (vg w) u) /\ erel w e = true /\
        vrel w (api_source (vg w) e) = true /\ vrel w (api_target (vg w) e) = true) /\
    (NoDup (api_vertices (vg w)) -> NoDup (view_vertices w)) /\
    (NoDup (api_edges (vg w)) -> NoDup (view_edges w)) /\
    view_num_vertices w = length (view_vertices w) /\ view_num_edges w = length (view_edges w) /\
    (forall u, view_out_degree w u = length (view_out_edges w u)) /\
    (forall u, view_in_degree w u = length (view_in_edges w u)).
  Proof.
    split; [intros u; apply filter_In|].
    split; [intros e; unfold view_edges; rewrite filter_In, view_keeps_spec; tauto|].
    split; [intros u e; unfold view_out_edges; rewrite filter_In, view_keeps_spec; tauto|].
    split; [intros u e; unfold view_in_edges; rewrite filter_In, view_keeps_spec; tauto|].
    split; [apply NoDup_filter|]. split; [apply NoDup_filter|]. auto.
  Qed.

  Lemma view_init_all (g : api E) :
    view_vertices (view_init g None None) = api_vertices g /\
    view_edges (view_init g None None) = api_edges g.
  Proof. split; apply filter_id; reflexivity. Qed.

  Lemma view_vertices_set w w' : vg w = vg w' -> forall u,
    (In u (view_vertices (view_or w w')) <-> In u (view_vertices w) \/ In u (view_vertices w')) /\
    (In u (view_vertices (view_and w w')) <-> In u (view_vertices w) /\ In u (view_vertices w')) /\
    (In u (view_vertices (view_sub w w')) <-> In u (view_vertices w) /\ ~ In u (view_vertices w')).
  Proof.
    intros G u. unfold view_vertices, view_or, view_and, view_sub. cbn. rewrite !filter_In, <- G.
    destruct (vrel w u), (vrel w' u); cbn; intuition congruence.
  Qed.

  Lemma view_and_edges w w' : vg w = vg w' -> forall e,
    In e (view_edges (view_and w w')) <-> In e (view_edges w) /\ In e (view_edges w').
  Proof.
    intros G e. unfold view_edges. rewrite !filter_In, !view_keeps_spec. unfold view_and. cbn.
    rewrite !andb_true_iff, <- G. tauto.
  Qed.

  Lemma view_or_edges w w' : vg w = vg w' -> forall e,
    (In e (view_edges w) \/ In e (view_edges w') -> In e (view_edges (view_or w w'))) /\
    (In e (view_edges (view_or w w')) <->
       In e (api_edges (vg w)) /\ (erel w e = true \/ erel w' e = true) /\
       (vrel w (api_source (vg w) e) = true \/ vrel w' (api_source (vg w) e) = true) /\
       (vrel w (api_target (vg w) e) = true \/ vrel w' (api_target (vg w) e) = true)).
  Proof.
    intros G e. unfold view_edges. rewrite !filter_In, !view_keeps_spec. unfold view_or. cbn.
    rewrite !orb_true_iff, <- G. tauto.
  Qed.

  Lemma view_sub_edges w w' : vg w = vg w' -> forall e,
    In e (view_edges (view_sub w w')) <->
       In e (api_edges (vg w)) /\
       vrel w (api_source (vg w) e) = true /\ vrel w (api_target (vg w) e) = true /\
       vrel w' (api_source (vg w) e) = false /\ vrel w' (api_target (vg w) e) = false.
  Proof.
    intros G e. unfold view_edges. rewrite filter_In, view_keeps_spec. unfold view_sub. cbn.
    rewrite orb_true_iff, !andb_true_iff, !negb_true_iff. tauto.
  Qed.

  Lemma reverse_involutive (g : api E) : reverse_graph (reverse_graph g) = g.
  Proof. destruct g. reflexivity. Qed.
End View.

(** One step along an out-edge, for any API. *)
Definition arc {E} (g : api E) (u v : nat) : Prop :=
  exists e, In e (api_out_edges g u) /\ api_target g e = v.

Lemma reverse_arc g V Es : irep g V Es ->
  forall u v, arc (reverse_graph (IG_api g)) u v <-> arc (IG_api g) v u.
Proof.
  intros R u v. unfold arc. cbn. split.
  - intros (e & I & S). eapply Permutation_in in I; [|apply (irep_in _ _ _ u R)].
    apply filter_In in I. destruct I as (I & T). apply Nat.eqb_eq in T. exists e. split; [|exact T].
    eapply Permutation_in; [symmetry; apply (drep_out _ _ _ v (ir_d _ _ _ R))|].
    apply filter_In. split; [exact I|]. apply Nat.eqb_eq, S.
  - intros (e & I & T). eapply Permutation_in in I; [|apply (drep_out _ _ _ v (ir_d _ _ _ R))].
    apply filter_In in I. destruct I as (I & S). apply Nat.eqb_eq in S. exists e. split; [|exact S].
    eapply Permutation_in; [symmetry; apply (irep_in _ _ _ u R)|].
    apply filter_In. split; [exact I|]. apply Nat.eqb_eq, T.
Qed.

Lemma clos_converse {A} (R R' : A -> A -> Prop) : (forall u v, R' u v <-> R v u) ->
  forall u v, clos_refl_trans A R' u v <-> clos_refl_trans A R v u.
Proof.
  intros H u v. split; induction 1.
  - apply rt_step, H. assumption.
  - apply rt_refl.
  - eapply rt_trans; eassumption.
  - apply rt_step, H. assumption.
  - apply rt_refl.
  - eapply rt_trans; eassumption.
Qed.

Lemma reverse_graph_spec n ops : closed_prog i_step (a_init n) ops ->
  let g := IG_api (fst (run IG_call (IG_init n) ops)) in
  let r := reverse_graph g in
  (forall u, api_out_edges r u = api_in_edges g u) /\
  (forall u, api_in_edges r u = api_out_edges g u) /\
  (forall e, api_source r e = api_target g e /\ api_target r e = api_source g e) /\
  api_vertices r = api_vertices g /\ api_edges r = api_edges g /\
  (forall u e, In e (api_out_edges r u) -> api_source r e = u) /\
  (forall u e, In e (api_in_edges r u) -> api_target r e = u) /\
  (forall u v, clos_refl_trans nat (arc r) u v <-> clos_refl_trans nat (arc g) v u) /\
  reverse_graph r = g.
Proof.
  intros CP g r. destruct (incidence_run n ops CP) as ((R & _) & _).
  split; [reflexivity|]. split; [reflexivity|]. split; [auto|]. split; [reflexivity|]. split; [reflexivity|].
  split; [|split; [|split]].
  - intros u e I. unfold r, g in I |- *. cbn in *. apply In_in_edges in I; [|apply (ir_wf _ _ _ R)]. tauto.
  - intros u e I. unfold r, g in I |- *. cbn in *. apply In_out_edges in I;
      [|apply (dr_wf _ _ _ (ir_d _ _ _ R))]. tauto.
  - apply clos_converse. eapply reverse_arc. exact R.
  - apply reverse_involutive.
Qed.

(** ** reverse_dict *)
Section RevDict.
  Context {K V : Type} `{EqDec K} `{EqDec V}.

  (** Last key holding a value. *)
  Fixpoint last_key (d : dict K V) (v : V) : option K :=
    match d with
    | [] => None
    | (k, v') :: d' =>
        match last_key d' v with
        | Some k' => Some k'
        | None => if eqb v v' then Some k else None
        end
    end.

  Definition revf := fun (acc : dict V K) '((k, v) : K * V) => dset acc v k.

  Lemma reverse_fold (d : dict K V) acc v :
    dget (fold_left revf d acc) v = match last_key d v with Some k => Some k | None => dget acc v end.
  Proof.
    revert acc. induction d as [|[k v'] d IH]; intros acc; cbn; [reflexivity|].
    rewrite IH. destruct (last_key d v); [reflexivity|]. rewrite dget_dset.
    destruct (eqb v v'); reflexivity.
  Qed.

  Lemma reverse_dict_get (d : dict K V) v : dget (reverse_dict d) v = last_key d v.
  Proof.
    unfold reverse_dict. change (dget (fold_left revf d []) v = last_key d v). rewrite reverse_fold.
    destruct (last_key d v); reflexivity.
  Qed.

  Lemma reverse_fold_new (d : dict K V) acc :
    NoDup (map snd d) -> (forall v, In v (map snd d) -> ~ In v (dkeys acc)) ->
    fold_left revf d acc = acc ++ map (fun '(k, v) => (v, k)) d.
  Proof.
    revert acc. induction d as [|[k v] d IH]; intros acc ND D; cbn; [symmetry; apply app_nil_r|].
    cbn in ND. inversion ND as [|? ? NI ND']; subst.
    assert (Q : dset acc v k = acc ++ [(v, k)]).
    { specialize (D v (or_introl eq_refl)). clear -D. induction acc as [|[a b] acc IHa]; cbn; [reflexivity|].
      destruct (eqb_spec v a) as [->|N]; [exfalso; apply D; left; reflexivity|].
      rewrite IHa; [reflexivity|]. intros I. apply D. right. exact I. }
    rewrite Q, IH; [rewrite <- app_assoc; reflexivity|exact ND'|].
    intros w I J. unfold dkeys in J. rewrite map_app, in_app_iff in J. cbn in J.
    destruct J as [J|[<-|[]]]; [|contradiction]. apply (D w); [right; exact I|exact J].
  Qed.

  Lemma reverse_dict_inj (d : dict K V) : NoDup (map snd d) ->
    reverse_dict d = map (fun '(k, v) => (v, k)) d.
  Proof. intros ND. apply (reverse_fold_new d [] ND). intros v _ []. Qed.
End RevDict.

Lemma reverse_dict_involutive {K V} `{EqDec K} `{EqDec V} (d : dict K V) :
  NoDup (dkeys d) -> NoDup (map snd d) -> reverse_dict (reverse_dict d) = d.
Proof.
  intros N1 N2. rewrite (reverse_dict_inj d N2), reverse_dict_inj.
  - rewrite map_map. rewrite <- (map_id d) at 2. apply map_ext. intros [k v]. reflexivity.
  - rewrite map_map. erewrite map_ext; [exact N1|]. intros [k v]. reflexivity.
Qed.

Lemma last_key_spec {K V} `{EqDec K} `{EqDec V} (d : dict K V) v k : last_key d v = Some k <->
  exists d1 d2, d = d1 ++ (k, v) :: d2 /\ ~ In v (map snd d2).
Proof.
  revert k. induction d as [|[k0 v0] d IH]; intros k; cbn.
  - split; [discriminate|]. intros ([|] & ? & Q & _); discriminate.
  - destruct (last_key d v) as [k'|] eqn:L.
    + rewrite IH. split.
      * intros (d1 & d2 & -> & N). exists ((k0, v0) :: d1), d2. auto.
      * intros ([|x d1] & d2 & Q & N); cbn in Q; injection Q as Q1 Q2.
        -- exfalso. subst. assert (M := proj1 (IH k') eq_refl). destruct M as (e1 & e2 & -> & _).
           apply N. rewrite map_app, in_app_iff. right. left. reflexivity.
        -- exists d1, d2. auto.
    + assert (NV : ~ In v (map snd d)).
      { intros I. apply in_map_iff in I. destruct I as ([k1 v1] & Q & I). cbn in Q. subst v1.
        clear IH. revert L I. induction d as [|[a b] d IHd]; cbn; [tauto|].
        destruct (last_key d v); [discriminate|]. destruct (eqb_spec v b); [discriminate|].
        intros _ [I|I]; [congruence|]. apply IHd; auto. }
      destruct (eqb_spec v v0) as [->|Nv].
      * split.
        -- intros Q. injection Q as <-. exists [], d. auto.
        -- intros ([|x d1] & d2 & Q & N); cbn in Q; injection Q; intros; subst; [reflexivity|].
           exfalso. apply NV. rewrite map_app, in_app_iff. right. left. reflexivity.
      * split; [discriminate|]. intros ([|x d1] & d2 & Q & N); cbn in Q; injection Q; intros; subst.
        -- contradiction.
        -- exfalso. apply NV. rewrite map_app, in_app_iff. right. left. reflexivity.
Qed.
