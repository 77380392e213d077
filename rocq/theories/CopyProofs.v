(** Lemmas on graph_copy. *)
From Verif Require Import Base BaseProofs Graph GraphSpec GraphProofs Search SearchSpec SearchProofs SearchProofs2 SearchUsers SearchUsersSpec SearchUsersProofs.
#[local] Arguments dkeys : simpl never.

Lemma dset_fresh {K V} `{EqDec K} (d : dict K V) k v : ~ In k (dkeys d) -> dset d k v = d ++ [(k, v)].
Proof.
  induction d as [|[k' v'] d IH]; intros N; [reflexivity|]. cbn [dset app]. destruct (eqb_spec k k') as [->|NE]; [destruct N; left; reflexivity|].
  rewrite IH; [reflexivity|]. intros I. apply N. right. exact I.
Qed.
Lemma dkeys_snoc {K V} (d : dict K V) k v : dkeys (d ++ [(k, v)]) = dkeys d ++ [k].
Proof. unfold dkeys. rewrite map_app. reflexivity. Qed.
Lemma dget_snoc {K V} `{EqDec K} (d : dict K V) k v k' x : dget d k' = Some x -> dget (d ++ [(k, v)]) k' = Some x.
Proof. induction d as [|[a b] d IH]; cbn; [discriminate|]. destruct (eqb k' a); [trivial|exact IH]. Qed.
Lemma dget_snoc_new {K V} `{EqDec K} (d : dict K V) k v : ~ In k (dkeys d) -> dget (d ++ [(k, v)]) k = Some v.
Proof.
  induction d as [|[a b] d IH]; cbn; intros N; [rewrite eqb_refl; reflexivity|]. destruct (eqb_spec k a) as [->|NE]; [destruct N; left; reflexivity|].
  apply IH. intros I. apply N. right. exact I.
Qed.

Section Copy.
  Context {E : Type} {EE : EqDec E}.
  Variables (out_edges : nat -> list E) (src tgt : E -> nat) (vrelevant : nat -> bool) (erelevant : E -> bool).
  Hypothesis SRC : forall u e, In e (out_edges u) -> src e = u.
  Notation rel := (fun e => erelevant e && vrelevant (tgt e)).
  Notation copying := (@copying E graph).
  Notation copy_edge := (copy_edge src tgt G_add_vertex G_add_edge).
  Notation dup_vertex := (@dup_vertex E graph G_add_vertex).
  Notation copy_visitor := (copy_visitor src tgt vrelevant erelevant G_add_vertex G_add_edge).

  Fixpoint copy_edges (X : list E) (st : copying) : res copying :=
    match X with [] => Ok st | e :: X' => rbind (copy_edge e st) (copy_edges X') end.
  (** without Start, the calls copy the examined edges *)
  Lemma copy_calls (t : list (event E)) : (forall x s, In x t -> x <> Start s) -> Forall (fun e => rel e = true) (examined t) ->
    forall st, calls copy_visitor t st = copy_edges (examined t) st.
  Proof.
    induction t as [|x t IH]; intros N F st; [reflexivity|]. assert (N' : forall y s, In y t -> y <> Start s) by (intros y s I; apply N; right; exact I).
    cbn [calls]. destruct x; cbn [SearchUsers.copy_visitor rbind]; try (apply IH; [exact N'|exact F]).
    - destruct (N (Start v) v (or_introl eq_refl) eq_refl).
    - change (examined (Examine e :: t)) with (e :: examined t) in *. inversion F as [|? ? F1 F2]; subst. rewrite F1. cbn [copy_edges].
      destruct (copy_edge e st); cbn [rbind]; [apply IH; assumption|reflexivity].
  Qed.

  (** [V0] and [E0]: what the given graph contains before the copy *)
  Variables (V0 : list nat) (E0 : list gedge).
  Record cinv (st : copying) : Prop := {
    ci_a : exists a, drep_full (cp_dup st) a /\ V0 ++ map snd (cp_vertices st) = verts a /\ E0 ++ map snd (cp_edges st) = es a;
    ci_pv : NoDup (dkeys (cp_vertices st));
    ci_done : forall x, In x (cp_done st) <-> In x (dkeys (cp_vertices st));
    ci_pe : NoDup (dkeys (cp_edges st));
    ci_ends : forall e e', In (e, e') (cp_edges st) -> dget (cp_vertices st) (src e) = Some (source e') /\ dget (cp_vertices st) (tgt e) = Some (target e') }.

  Lemma dup_inv u st : cinv st -> ~ In u (dkeys (cp_vertices st)) -> exists st' u', dup_vertex u st = Ok (st', u') /\ cinv st' /\
    cp_vertices st' = cp_vertices st ++ [(u, u')] /\ cp_edges st' = cp_edges st.
  Proof.
    intros [(a & D & V1 & E1) H1 H2 H3 H4] N. unfold dup_vertex. unfold G_add_vertex at 1.
    exists (Copying (fst (G_add_vertex (cp_dup st))) (dset (cp_vertices st) u (last_vertex_id (cp_dup st))) (cp_edges st) (sadd u (cp_done st))), (last_vertex_id (cp_dup st)).
    split; [reflexivity|]. rewrite (dset_fresh _ _ _ N). split; [|split; reflexivity]. constructor; cbn [cp_dup cp_vertices cp_edges cp_done].
    - exists (fst (a_add_vertex a)). split; [|cbn; split; [|exact E1]].
      + exact (proj1 (d_step_ok (cp_dup st) a OpAddVertex D)).
      + rewrite map_app, app_assoc, V1. cbn. destruct D as (_ & -> & _). reflexivity.
    - rewrite dkeys_snoc. apply NoDup_snoc; assumption.
    - intros x. rewrite dkeys_snoc, In_sadd, in_app_iff, H2. cbn. intuition.
    - exact H3.
    - intros e e' I. destruct (H4 e e' I) as [A B]. split; apply dget_snoc; assumption.
  Qed.
  Lemma dget_vals (st : copying) a u u' : cinv st -> drep_full (cp_dup st) a -> V0 ++ map snd (cp_vertices st) = verts a -> dget (cp_vertices st) u = Some u' -> In u' (verts a).
  Proof. intros C D V1 G. rewrite <- V1. apply dget_In in G. apply in_or_app. right. apply in_map_iff. exists (u, u'). auto. Qed.
  Lemma copy_edge_inv e st : cinv st -> In (src e) (dkeys (cp_vertices st)) -> ~ In e (dkeys (cp_edges st)) ->
    exists st' e', copy_edge e st = Ok st' /\ cinv st' /\
      (forall x, In x (dkeys (cp_vertices st')) <-> In x (dkeys (cp_vertices st)) \/ x = tgt e) /\ cp_edges st' = cp_edges st ++ [(e, e')].
  Proof.
    intros C S N. unfold copy_edge. apply key_dget in S. destruct S as (u' & GU). rewrite GU.
    assert (X : exists st1 v', (if mem (tgt e) (cp_done st) then match dget (cp_vertices st) (tgt e) with Some v_dup => Ok (st, v_dup) | None => Raise KeyError end else dup_vertex (tgt e) st) = Ok (st1, v') /\
      cinv st1 /\ dget (cp_vertices st1) (src e) = Some u' /\ dget (cp_vertices st1) (tgt e) = Some v' /\ cp_edges st1 = cp_edges st /\
      (forall x, In x (dkeys (cp_vertices st1)) <-> In x (dkeys (cp_vertices st)) \/ x = tgt e)).
    { destruct (mem_reflect (tgt e) (cp_done st)) as [I|I].
      - apply (ci_done _ C) in I. pose proof I as I'. apply key_dget in I. destruct I as (v' & GV). rewrite GV. exists st, v'. repeat (split; [reflexivity || assumption|]).
        intros x. split; [auto|]. intros [J| ->]; assumption.
      - rewrite (ci_done _ C) in I. destruct (dup_inv (tgt e) st C I) as (st1 & v' & D & C1 & PV & PE). exists st1, v'. split; [exact D|]. split; [exact C1|]. rewrite PV.
        split; [apply dget_snoc, GU|]. split; [apply dget_snoc_new, I|]. split; [exact PE|]. intros x. rewrite dkeys_snoc, in_app_iff. cbn. intuition. }
    destruct X as (st1 & v' & -> & C1 & G1 & G2 & PE & K). cbn [rbind].
    pose proof C1 as C1'. destruct C1' as [(a & D & V1 & E1) H1 H2 H3 H4].
    assert (IU : In u' (verts a)) by (eapply dget_vals; eassumption).
    destruct (drep_add_edge (cp_dup st1) (verts a) (es a) u' v' (proj1 D) IU) as (g' & -> & L & R').
    set (e' := Edge u' v' (fresh (between u' v' (es a)))) in *. cbn match.
    assert (N1 : ~ In e (dkeys (cp_edges st1))) by (rewrite PE; exact N).
    exists (Copying g' (cp_vertices st1) (dset (cp_edges st1) e e') (cp_done st1)), e'. split; [reflexivity|]. rewrite (dset_fresh _ _ _ N1). split; [|split; [exact K|cbn; rewrite PE; reflexivity]].
    constructor; cbn [cp_dup cp_vertices cp_edges cp_done].
    - exists (AG (next_id a) (verts a) (es a ++ [e'])). split; [|cbn [verts es]; split; [exact V1|rewrite map_app, app_assoc, E1; reflexivity]].
      destruct D as (_ & D2 & D3). split; [exact R'|]. split; [cbn; congruence|exact D3].
    - exact H1.
    - exact H2.
    - rewrite dkeys_snoc. apply NoDup_snoc; assumption.
    - intros x x' I. apply in_app_or in I. destruct I as [I|[I|[]]]; [apply H4, I|]. injection I as <- <-. split; assumption.
  Qed.

  (** the source of each edge is known when the edge comes *)
  Fixpoint sourced (K : nat -> Prop) (X : list E) : Prop :=
    match X with [] => True | e :: X' => K (src e) /\ sourced (fun x => K x \/ x = tgt e) X' end.
  Lemma sourced_ext X : forall K K' : nat -> Prop, (forall x, K x -> K' x) -> sourced K X -> sourced K' X.
  Proof.
    induction X as [|e X IH]; intros K K' H; cbn; [trivial|]. intros [A B]. split; [apply H, A|]. revert B. apply IH. intros x [C|C]; [left; apply H, C|right; exact C].
  Qed.
  Lemma sourced_app X : forall (K : nat -> Prop) Y, sourced K X -> sourced K Y -> sourced K (X ++ Y).
  Proof.
    induction X as [|e X IH]; intros K Y A B; cbn; [exact B|]. destruct A as [A1 A2]. split; [exact A1|]. apply IH; [exact A2|]. revert B. apply sourced_ext. auto.
  Qed.
  Lemma run_sourced :
    (forall v c a t c', vrun out_edges tgt rel v c a t c' -> forall K : nat -> Prop, K v -> sourced K (examined t)) /\
    (forall u es c t c', eruns out_edges tgt rel u es c t c' -> incl es (u_edges out_edges rel u) -> forall K : nat -> Prop, K u -> sourced K (examined t)).
  Proof.
    assert (IS : forall u e es, incl (e :: es) (u_edges out_edges rel u) -> src e = u /\ incl es (u_edges out_edges rel u)).
    { intros u e es I. split; [|intros x X; apply I; right; exact X]. apply SRC. assert (J : In e (u_edges out_edges rel u)) by (apply I; left; reflexivity). apply filter_In in J. apply J. }
    apply run_ind.
    - intros v c a t c' A W R IH K KV. destruct (vproj v a t A) as (_ & _ & P & _). rewrite P. apply (IH (incl_refl _)), KV.
    - intros u c _ K _. exact I.
    - intros u e es c t1 c1 t2 c2 W V1 A V2 B I K KU. destruct (IS _ _ _ I) as [S I']. destruct (tproj e t1 _ t2 (asks_ask out_edges u)) as (_ & _ & P & _). rewrite P. cbn [sourced].
      split; [rewrite S; exact KU|]. apply sourced_app; [apply A; right; reflexivity|apply (B I'); left; exact KU].
    - intros u e es c t c' G V B I K KU. destruct (IS _ _ _ I) as [S I']. change (examined (Examine e :: Back e :: t)) with (e :: examined t). cbn [sourced].
      split; [rewrite S; exact KU|]. apply (B I'). left. exact KU.
    - intros u e es c t c' G V B I K KU. destruct (IS _ _ _ I) as [S I']. change (examined (Examine e :: ForwardOrCross e :: t)) with (e :: examined t). cbn [sourced].
      split; [rewrite S; exact KU|]. apply (B I'). left. exact KU.
  Qed.
  Lemma copy_edges_inv X : forall st, cinv st -> sourced (fun x => In x (dkeys (cp_vertices st))) X -> NoDup X -> (forall e, In e X -> ~ In e (dkeys (cp_edges st))) ->
    exists st', copy_edges X st = Ok st' /\ cinv st' /\ (forall x, In x (dkeys (cp_vertices st')) <-> In x (dkeys (cp_vertices st)) \/ In x (map tgt X)) /\
      dkeys (cp_edges st') = dkeys (cp_edges st) ++ X.
  Proof.
    induction X as [|e X IH]; intros st C S N D.
    - exists st. split; [reflexivity|]. split; [exact C|]. split; [cbn; tauto|rewrite app_nil_r; reflexivity].
    - destruct S as [S1 S2]. inversion N as [|? ? N1 N2]; subst. destruct (copy_edge_inv e st C S1) as (st1 & e' & E1 & C1 & K1 & P1); [apply D; left; reflexivity|].
      destruct (IH st1 C1) as (st' & E2 & C2 & K2 & P2).
      + revert S2. apply sourced_ext. intros x X1. apply K1, X1.
      + exact N2.
      + intros x I J. rewrite P1, dkeys_snoc in J. apply in_app_or in J. destruct J as [J|[J|[]]]; [apply (D x (or_intror I) J)|subst x; exact (N1 I)].
      + exists st'. cbn [copy_edges]. rewrite E1. cbn [rbind]. split; [exact E2|]. split; [exact C2|]. split.
        * intros x. rewrite K2, K1. cbn. intuition.
        * rewrite P2, P1, dkeys_snoc, <- app_assoc. reflexivity.
  Qed.
  Lemma run_no_start :
    (forall v c a t c', vrun out_edges tgt rel v c a t c' -> forall x s, In x t -> x <> Start s) /\
    (forall u es c t c', eruns out_edges tgt rel u es c t c' -> forall x s, In x t -> x <> Start s).
  Proof.
    assert (A : forall a (x : event E) s, Forall is_ask a -> In x a -> x <> Start s).
    { intros a x s F I J. rewrite Forall_forall in F. apply F in I. subst x. destruct I. }
    apply run_ind.
    - intros v c a t c' F W R IH x s [<-|I]; [discriminate|]. apply in_app_or in I. destruct I as [I|I]; [apply (A a x s F I)|]. apply in_app_or in I.
      destruct I as [I|[<-|[]]]; [apply IH, I|discriminate].
    - intros u c x s [].
    - intros u e es c t1 c1 t2 c2 W V1 IA V2 IB x s [<-|[<-|I]]; [discriminate|discriminate|]. apply in_app_or in I. destruct I as [I|I]; [apply IA, I|].
      apply in_app_or in I. destruct I as [I|I]; [apply (A _ x s (asks_ask out_edges u) I)|apply IB, I].
    - intros u e es c t c' G V IB x s [<-|[<-|I]]; [discriminate|discriminate|apply IB, I].
    - intros u e es c t c' G V IB x s [<-|[<-|I]]; [discriminate|discriminate|apply IB, I].
  Qed.
End Copy.
