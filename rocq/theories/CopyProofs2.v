(** Lemmas on graph_copy into an UndirectedGraph. *)
From Verif Require Import Base BaseProofs Graph GraphSpec GraphProofs GraphProofs2 Search SearchSpec SearchProofs SearchProofs2 SearchUsers SearchUsersSpec SearchUsersProofs CopyProofs.
#[local] Arguments dkeys : simpl never.

Section UCopy.
  Context {E : Type} {EE : EqDec E}.
  Variables (out_edges : nat -> list E) (src tgt : E -> nat) (vrelevant : nat -> bool) (erelevant : E -> bool).
  Hypothesis SRC : forall u e, In e (out_edges u) -> src e = u.
  Notation rel := (fun e => erelevant e && vrelevant (tgt e)).
  Notation sourced := (CopyProofs.sourced src tgt).
  Notation copying := (@copying E graph).
  Notation copy_edge := (copy_edge src tgt G_add_vertex UG_add_edge).
  Notation dup_vertex := (@dup_vertex E graph G_add_vertex).
  Notation copy_visitor := (copy_visitor src tgt vrelevant erelevant G_add_vertex UG_add_edge).

  Fixpoint ucopy_edges (X : list E) (st : copying) : res copying :=
    match X with [] => Ok st | e :: X' => rbind (copy_edge e st) (ucopy_edges X') end.
  (** without Start, the calls copy the examined edges *)
  Lemma ucopy_calls (t : list (event E)) : (forall x s, In x t -> x <> Start s) -> Forall (fun e => rel e = true) (examined t) ->
    forall st, calls copy_visitor t st = ucopy_edges (examined t) st.
  Proof.
    induction t as [|x t IH]; intros N F st; [reflexivity|]. assert (N' : forall y s, In y t -> y <> Start s) by (intros y s I; apply N; right; exact I).
    cbn [calls]. destruct x; cbn [SearchUsers.copy_visitor rbind]; try (apply IH; [exact N'|exact F]).
    - destruct (N (Start v) v (or_introl eq_refl) eq_refl).
    - change (examined (Examine e :: t)) with (e :: examined t) in *. inversion F as [|? ? F1 F2]; subst. rewrite F1. cbn [ucopy_edges].
      destruct (copy_edge e st); cbn [rbind]; [apply IH; assumption|reflexivity].
  Qed.

  (** [V0] and [E0]: what the given graph contains before the copy *)
  Variables (V0 : list nat) (E0 : list gedge).
  Record ucinv (st : copying) : Prop := {
    uci_a : exists a, urep_full (cp_dup st) a /\ V0 ++ map snd (cp_vertices st) = verts a /\ E0 ++ map snd (cp_edges st) = es a;
    uci_pv : NoDup (dkeys (cp_vertices st));
    uci_done : forall x, In x (cp_done st) <-> In x (dkeys (cp_vertices st));
    uci_pe : NoDup (dkeys (cp_edges st));
    uci_ends : forall e e', In (e, e') (cp_edges st) -> exists u' v', dget (cp_vertices st) (src e) = Some u' /\ dget (cp_vertices st) (tgt e) = Some v' /\
      source e' = Nat.min u' v' /\ target e' = Nat.max u' v' }.

  Lemma udup_inv u st : ucinv st -> ~ In u (dkeys (cp_vertices st)) -> exists st' u', dup_vertex u st = Ok (st', u') /\ ucinv st' /\
    cp_vertices st' = cp_vertices st ++ [(u, u')] /\ cp_edges st' = cp_edges st.
  Proof.
    intros [(a & D & V1 & E1) H1 H2 H3 H4] N. unfold dup_vertex. unfold G_add_vertex at 1.
    exists (Copying (fst (G_add_vertex (cp_dup st))) (dset (cp_vertices st) u (last_vertex_id (cp_dup st))) (cp_edges st) (sadd u (cp_done st))), (last_vertex_id (cp_dup st)).
    split; [reflexivity|]. rewrite (dset_fresh _ _ _ N). split; [|split; reflexivity]. constructor; cbn [cp_dup cp_vertices cp_edges cp_done].
    - exists (fst (a_add_vertex a)). split; [|cbn; split; [|exact E1]].
      + exact (proj1 (u_step_ok (cp_dup st) a OpAddVertex D I)).
      + rewrite map_app, app_assoc, V1. cbn. destruct D as (_ & -> & _). reflexivity.
    - rewrite dkeys_snoc. apply NoDup_snoc; assumption.
    - intros x. rewrite dkeys_snoc, In_sadd, in_app_iff, H2. cbn. intuition.
    - exact H3.
    - intros e e' I. destruct (H4 e e' I) as (x & y & A & B & L). exists x, y. split; [apply dget_snoc; assumption|]. split; [apply dget_snoc; assumption|exact L].
  Qed.
  Lemma dget_vals (st : copying) a u u' : ucinv st -> urep_full (cp_dup st) a -> V0 ++ map snd (cp_vertices st) = verts a -> dget (cp_vertices st) u = Some u' -> In u' (verts a).
  Proof. intros C D V1 G. rewrite <- V1. apply dget_In in G. apply in_or_app. right. apply in_map_iff. exists (u, u'). auto. Qed.
  Lemma ucopy_edge_inv e st : ucinv st -> In (src e) (dkeys (cp_vertices st)) -> ~ In e (dkeys (cp_edges st)) ->
    exists st' e', copy_edge e st = Ok st' /\ ucinv st' /\
      (forall x, In x (dkeys (cp_vertices st')) <-> In x (dkeys (cp_vertices st)) \/ x = tgt e) /\ cp_edges st' = cp_edges st ++ [(e, e')].
  Proof.
    intros C S N. unfold copy_edge. apply key_dget in S. destruct S as (u' & GU). rewrite GU.
    assert (X : exists st1 v', (if mem (tgt e) (cp_done st) then match dget (cp_vertices st) (tgt e) with Some v_dup => Ok (st, v_dup) | None => Raise KeyError end else dup_vertex (tgt e) st) = Ok (st1, v') /\
      ucinv st1 /\ dget (cp_vertices st1) (src e) = Some u' /\ dget (cp_vertices st1) (tgt e) = Some v' /\ cp_edges st1 = cp_edges st /\
      (forall x, In x (dkeys (cp_vertices st1)) <-> In x (dkeys (cp_vertices st)) \/ x = tgt e)).
    { destruct (mem_reflect (tgt e) (cp_done st)) as [I|I].
      - apply (uci_done _ C) in I. pose proof I as I'. apply key_dget in I. destruct I as (v' & GV). rewrite GV. exists st, v'. repeat (split; [reflexivity || assumption|]).
        intros x. split; [auto|]. intros [J| ->]; assumption.
      - rewrite (uci_done _ C) in I. destruct (udup_inv (tgt e) st C I) as (st1 & v' & D & C1 & PV & PE). exists st1, v'. split; [exact D|]. split; [exact C1|]. rewrite PV.
        split; [apply dget_snoc, GU|]. split; [apply dget_snoc_new, I|]. split; [exact PE|]. intros x. rewrite dkeys_snoc, in_app_iff. cbn. intuition. }
    destruct X as (st1 & v' & -> & C1 & G1 & G2 & PE & K). cbn [rbind].
    pose proof C1 as C1'. destruct C1' as [(a & D & V1 & E1) H1 H2 H3 H4].
    assert (IU : In u' (verts a)) by (eapply dget_vals; eassumption).
    assert (IV : In v' (verts a)) by (eapply dget_vals; eassumption).
    destruct (urep_add_edge (cp_dup st1) (verts a) (es a) u' v' (proj1 D) IU IV) as (g' & -> & L & R').
    set (e' := Edge (Nat.min u' v') (Nat.max u' v') (fresh (between (Nat.min u' v') (Nat.max u' v') (es a)))) in *. cbn match.
    assert (N1 : ~ In e (dkeys (cp_edges st1))) by (rewrite PE; exact N).
    exists (Copying g' (cp_vertices st1) (dset (cp_edges st1) e e') (cp_done st1)), e'. split; [reflexivity|]. rewrite (dset_fresh _ _ _ N1). split; [|split; [exact K|cbn; rewrite PE; reflexivity]].
    constructor; cbn [cp_dup cp_vertices cp_edges cp_done].
    - exists (AG (next_id a) (verts a) (es a ++ [e'])). split; [|cbn [verts es]; split; [exact V1|rewrite map_app, app_assoc, E1; reflexivity]].
      destruct D as (_ & D2 & D3). split; [exact R'|]. split; [cbn; congruence|exact D3].
    - exact H1.
    - exact H2.
    - rewrite dkeys_snoc. apply NoDup_snoc; assumption.
    - intros x x' I. apply in_app_or in I. destruct I as [I|[I|[]]]; [apply H4, I|]. injection I as <- <-. exists u', v'. auto.
  Qed.

  Lemma ucopy_edges_inv X : forall st, ucinv st -> sourced (fun x => In x (dkeys (cp_vertices st))) X -> NoDup X -> (forall e, In e X -> ~ In e (dkeys (cp_edges st))) ->
    exists st', ucopy_edges X st = Ok st' /\ ucinv st' /\ (forall x, In x (dkeys (cp_vertices st')) <-> In x (dkeys (cp_vertices st)) \/ In x (map tgt X)) /\
      dkeys (cp_edges st') = dkeys (cp_edges st) ++ X.
  Proof.
    induction X as [|e X IH]; intros st C S N D.
    - exists st. split; [reflexivity|]. split; [exact C|]. split; [cbn; tauto|rewrite app_nil_r; reflexivity].
    - destruct S as [S1 S2]. inversion N as [|? ? N1 N2]; subst. destruct (ucopy_edge_inv e st C S1) as (st1 & e' & E1 & C1 & K1 & P1); [apply D; left; reflexivity|].
      destruct (IH st1 C1) as (st' & E2 & C2 & K2 & P2).
      + revert S2. apply sourced_ext. intros x X1. apply K1, X1.
      + exact N2.
      + intros x I J. rewrite P1, dkeys_snoc in J. apply in_app_or in J. destruct J as [J|[J|[]]]; [apply (D x (or_intror I) J)|subst x; exact (N1 I)].
      + exists st'. cbn [ucopy_edges]. rewrite E1. cbn [rbind]. split; [exact E2|]. split; [exact C2|]. split.
        * intros x. rewrite K2, K1. cbn. intuition.
        * rewrite P2, P1, dkeys_snoc, <- app_assoc. reflexivity.
  Qed.
End UCopy.
