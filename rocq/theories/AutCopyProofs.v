(** Lemmas on automaton_copy *)
From Verif Require Import Graph GraphSpec GraphProofs Search SearchSpec SearchProofs SearchProofs2 SearchUsers SearchUsersSpec SearchUsersProofs CopyProofs Automaton AutomatonSpec AutomatonProofs AutCopy Base BaseProofs.
#[local] Arguments dkeys : simpl never.

Section Copy.
  Context {A : Type} {EA : EqDec A}.
  Variables (cb : option (nat -> nat -> aut A -> aut A)) (b : nat -> bool).
  Notation E := (edge A).
  (** what the callback does to the final states *)
  Hypothesis CB : forall u u' h, match cb with None => h | Some f => f u u' h end = if b u then A_set_final h u' true else h.
  Notation copy_edge := (A_copy_edge cb).
  Notation dup_vertex := (A_dup_vertex cb).

  Fixpoint a_copy_edges (X : list E) (st : acopying A) : res (acopying A) :=
    match X with [] => Ok st | e :: X' => rbind (copy_edge e st) (a_copy_edges X') end.
  Lemma a_copy_calls vrelevant erelevant (t : list (event E)) : (forall x s, In x t -> x <> Start s) -> Forall (fun e => erelevant e && vrelevant (target e) = true) (examined t) ->
    forall st, calls (A_copy_visitor vrelevant erelevant cb) t st = a_copy_edges (examined t) st.
  Proof using Type.
    clear CB. induction t as [|x t IH]; intros N F st; [reflexivity|]. assert (N' : forall y s, In y t -> y <> Start s) by (intros y s I; apply N; right; exact I).
    cbn [calls]. destruct x; cbn [A_copy_visitor rbind]; try (apply IH; [exact N'|exact F]).
    - destruct (N (Start v) v (or_introl eq_refl) eq_refl).
    - change (examined (Examine e :: t)) with (e :: examined t) in *. inversion F as [|? ? F1 F2]; subst. rewrite F1. cbn [a_copy_edges].
      destruct (copy_edge e st); cbn [rbind]; [apply IH; assumption|reflexivity].
  Qed.

  (** [s0]: the content of the receiving automaton before the copy *)
  Variable s0 : aaut A.
  Hypothesis V0 : forall v, In v (aa_V s0) -> v < aa_next s0.
  Hypothesis T0 : forall e, In e (aa_T s0) -> source e < aa_next s0.
  Record acinv (st : acopying A) : Prop := {
    ai_a : exists T f, arep (ac_dup st) (AA (aa_next s0 + length (ac_vertices st)) (aa_V s0 ++ seq (aa_next s0) (length (ac_vertices st))) (aa_T s0 ++ T) (aa_q0 s0) f) /\ map snd (ac_edges st) = map Some T /\
             (forall u u', In (u, u') (ac_vertices st) -> f u' = b u || aa_final s0 u') /\ (forall v, v < aa_next s0 \/ aa_next s0 + length (ac_vertices st) <= v -> f v = aa_final s0 v);
    ai_v : map snd (ac_vertices st) = seq (aa_next s0) (length (ac_vertices st));
    ai_pv : NoDup (dkeys (ac_vertices st));
    ai_done : forall x, In x (ac_done st) <-> In x (dkeys (ac_vertices st));
    ai_pe : NoDup (dkeys (ac_edges st));
    ai_ends : forall e e', In (e, Some e') (ac_edges st) -> dget (ac_vertices st) (source e) = Some (source e') /\ dget (ac_vertices st) (target e) = Some (target e') /\ distinguisher e' = distinguisher e }.

  Lemma seq_snoc n k : seq n k ++ [n + k] = seq n (S k).
  Proof using Type. clear CB V0 T0. rewrite seq_S. reflexivity. Qed.
  Lemma a_dup_inv u st : acinv st -> ~ In u (dkeys (ac_vertices st)) -> exists st' u', dup_vertex u st = Ok (st', u') /\ acinv st' /\
    ac_vertices st' = ac_vertices st ++ [(u, u')] /\ ac_edges st' = ac_edges st.
  Proof using CB V0 T0.
    intros [(T & f & R & ET & FV & FO) H0 H1 H2 H3 H4] N. unfold A_dup_vertex, A_add_vertex.
    pose proof (A_step _ _ AAddVertex R) as [R1 _]. cbn [A_call aa_step fst snd A_add_vertex] in R1. pose proof R as (L & _). cbn in L. rewrite L in *.
    set (h := mkAut _ _ _ _) in *. rewrite CB. set (k := length (ac_vertices st)) in *. set (n := aa_next s0) in *.
    eexists _, (n + k). split; [reflexivity|]. cbn [ac_vertices ac_edges]. rewrite (dset_fresh _ _ _ N). split; [|split; reflexivity].
    constructor; cbn [ac_dup ac_vertices ac_edges ac_done].
    - rewrite app_length. cbn [length]. fold k. rewrite <- app_assoc, seq_snoc in R1. rewrite Nat.add_1_r in *. rewrite Nat.add_succ_r.
      assert (NS : forall x x', In (x, x') (ac_vertices st) -> x' < n + k). { intros x x' I. apply (in_map snd) in I. cbn in I. rewrite H0 in I. apply in_seq in I. lia. }
      destruct (b u) eqn:B.
      + pose proof (A_step _ _ (ASetFinal (n + k) true) R1) as [R2 _]. cbn [A_call aa_step fst snd] in R2. eexists T, _. split; [exact R2|]. split; [exact ET|]. split.
        * intros x x' I. cbn beta. apply in_app_iff in I. destruct I as [I|[[= <- <-]|[]]]; [|rewrite Nat.eqb_refl, B; reflexivity].
          pose proof (NS _ _ I). destruct (Nat.eqb_spec x' (n + k)); [lia|]. apply FV, I.
        * intros v Lv. cbn beta. destruct (Nat.eqb_spec v (n + k)); [lia|]. apply FO. lia.
      + exists T, f. split; [exact R1|]. split; [exact ET|]. split.
        * intros x x' I. apply in_app_iff in I. destruct I as [I|[[= <- <-]|[]]]; [apply FV, I|]. rewrite B. apply FO. lia.
        * intros v Lv. apply FO. lia.
    - rewrite map_app, app_length, H0. cbn [map snd length]. rewrite Nat.add_1_r. apply seq_snoc.
    - rewrite dkeys_snoc. apply NoDup_snoc; assumption.
    - intros x. rewrite dkeys_snoc, In_sadd, in_app_iff, H2. cbn. intuition.
    - exact H3.
    - intros e e' I. destruct (H4 e e' I) as (P & Q & S). split; [|split]; [apply dget_snoc; exact P|apply dget_snoc; exact Q|exact S].
  Qed.
  Lemma pv_inj st u v x : acinv st -> dget (ac_vertices st) u = Some x -> dget (ac_vertices st) v = Some x -> u = v.
  Proof using Type.
    clear CB V0 T0. intros C Gu Gv. assert (ND : NoDup (map snd (ac_vertices st))) by (rewrite (ai_v _ C); apply seq_NoDup). revert ND. apply dget_In in Gu, Gv. revert Gu Gv. induction (ac_vertices st) as [|[p q] l IH]; [intros []|]. cbn. intros [E1|E1] [E2|E2] ND; inversion ND as [|? ? N1 N2]; subst.
    - congruence.
    - injection E1 as -> ->. exfalso. apply N1. apply (in_map snd) in E2. exact E2.
    - injection E2 as -> ->. exfalso. apply N1. apply (in_map snd) in E1. exact E1.
    - apply IH; assumption.
  Qed.

  Lemma a_copy_edge_inv e st : acinv st -> In (source e) (dkeys (ac_vertices st)) -> ~ In e (dkeys (ac_edges st)) ->
    (forall e', In e' (dkeys (ac_edges st)) -> source e' = source e -> distinguisher e' = distinguisher e -> e' = e) ->
    exists st' e', copy_edge e st = Ok st' /\ acinv st' /\ (exists l, ac_vertices st' = ac_vertices st ++ l) /\
      (forall x, In x (dkeys (ac_vertices st')) <-> In x (dkeys (ac_vertices st)) \/ x = target e) /\ ac_edges st' = ac_edges st ++ [(e, Some e')].
  Proof using CB V0 T0.
    intros C S N DET. unfold A_copy_edge. apply key_dget in S. destruct S as (u' & GU). rewrite GU.
    assert (X : exists st1 v', (if mem (target e) (ac_done st) then match dget (ac_vertices st) (target e) with Some v_dup => Ok (st, v_dup) | None => Raise KeyError end else dup_vertex (target e) st) = Ok (st1, v') /\
      acinv st1 /\ dget (ac_vertices st1) (source e) = Some u' /\ dget (ac_vertices st1) (target e) = Some v' /\ ac_edges st1 = ac_edges st /\ (exists l, ac_vertices st1 = ac_vertices st ++ l) /\
      (forall x, In x (dkeys (ac_vertices st1)) <-> In x (dkeys (ac_vertices st)) \/ x = target e)).
    { destruct (mem_reflect (target e) (ac_done st)) as [I|I].
      - apply (ai_done _ C) in I. pose proof I as I'. apply key_dget in I. destruct I as (v' & GV). rewrite GV. exists st, v'. repeat (split; [reflexivity || assumption|]). split; [exists []; rewrite app_nil_r; reflexivity|].
        intros x. split; [auto|]. intros [J| ->]; assumption.
      - rewrite (ai_done _ C) in I. destruct (a_dup_inv (target e) st C I) as (st1 & v' & D & C1 & PV & PE). exists st1, v'. split; [exact D|]. split; [exact C1|]. rewrite PV.
        split; [apply dget_snoc, GU|]. split; [apply dget_snoc_new, I|]. split; [exact PE|]. split; [eexists; reflexivity|]. intros x. rewrite dkeys_snoc, in_app_iff. cbn. intuition. }
    destruct X as (st1 & v' & -> & C1 & G1 & G2 & PE & PV & K). cbn [rbind].
    pose proof C1 as C1'. destruct C1' as [(T & f & R & ET & FV & FO) H0 H1 H2 H3 H4].
    assert (IU : aa_next s0 <= u' < aa_next s0 + length (ac_vertices st1)). { apply dget_In in G1. apply (in_map snd) in G1. cbn in G1. rewrite H0 in G1. apply in_seq in G1. lia. }
    assert (LN : lookup (aa_T s0 ++ T) u' (distinguisher e) = None).
    { destruct (lookup (aa_T s0 ++ T) u' (distinguisher e)) as [r|] eqn:LK; [|reflexivity]. exfalso. pose proof R as (_ & _ & _ & TR & _). cbn in TR. rewrite (trep_lookup _ _ _ _ TR) in LK. apply TR in LK.
      apply in_app_or in LK. destruct LK as [LK|LK]; [apply T0 in LK; cbn in LK; lia|].
      assert (IM : In (Some (Edge u' r (distinguisher e))) (map snd (ac_edges st1))) by (rewrite ET; apply in_map; exact LK).
      apply in_map_iff in IM. destruct IM as ([x y] & Ey & I). cbn in Ey. subst y. destruct (H4 _ _ I) as (P1 & P2 & P3). cbn in P1, P3.
      assert (SE : source x = source e) by (apply (pv_inj st1 _ _ u' C1); assumption).
      assert (IK : In x (dkeys (ac_edges st))) by (rewrite <- PE; apply (in_map fst) in I; exact I).
      rewrite (DET x IK SE (eq_sym P3)) in IK. exact (N IK). }
    pose proof (A_step _ _ (AAddEdge u' v' (distinguisher e)) R) as [R1 O1]. cbn [A_call aa_step] in R1, O1. rewrite LN in R1, O1.
    rewrite (proj2 (mem_spec u' (aa_V s0 ++ seq (aa_next s0) (length (ac_vertices st1))))) in R1, O1 by (apply in_or_app; right; apply in_seq; lia). cbn [fst snd] in R1, O1.
    destruct (A_add_edge (ac_dup st1) u' v' (distinguisher e)) as [h [[oe ob]|x]]; cbn [aout_edge fst snd] in R1, O1; [|discriminate]. injection O1 as -> ->.
    set (e' := Edge u' v' (distinguisher e)) in *.
    assert (N1 : ~ In e (dkeys (ac_edges st1))) by (rewrite PE; exact N).
    exists (ACopying h (ac_vertices st1) (dset (ac_edges st1) e (Some e')) (ac_done st1)), e'. split; [reflexivity|]. rewrite (dset_fresh _ _ _ N1). cbn [ac_vertices ac_edges].
    split; [|split; [exact PV|split; [exact K|rewrite PE; reflexivity]]].
    assert (DK : drop_key u' (distinguisher e) (aa_T s0 ++ T) = aa_T s0 ++ T).
    { apply filter_id. intros x I. apply negb_true_iff. destruct (same_key_spec u' (distinguisher e) x) as [[X1 X2]|]; [|reflexivity]. exfalso.
      assert (FN : find (same_key u' (distinguisher e)) (aa_T s0 ++ T) = None) by (unfold lookup in LN; destruct (find _ (aa_T s0 ++ T)); [discriminate|reflexivity]).
      pose proof (find_none _ _ FN x I) as Z. destruct (same_key_spec u' (distinguisher e) x) as [|NN]; [discriminate|]. apply NN. auto. }
    rewrite DK, <- app_assoc in R1.
    constructor; cbn [ac_dup ac_vertices ac_edges ac_done].
    - exists (T ++ [e']), f. split; [exact R1|]. split; [rewrite !map_app, ET; reflexivity|]. split; [exact FV|exact FO].
    - exact H0.
    - exact H1.
    - exact H2.
    - rewrite dkeys_snoc. apply NoDup_snoc; assumption.
    - intros x x' I. apply in_app_or in I. destruct I as [I|[I|[]]]; [apply H4, I|]. injection I as <- <-. split; [assumption|]. split; [assumption|reflexivity].
  Qed.

  Lemma a_copy_edges_inv X : forall st, acinv st -> sourced source target (fun x => In x (dkeys (ac_vertices st))) X -> NoDup X -> (forall e, In e X -> ~ In e (dkeys (ac_edges st))) ->
    (forall e e', In e (dkeys (ac_edges st) ++ X) -> In e' (dkeys (ac_edges st) ++ X) -> source e = source e' -> distinguisher e = distinguisher e' -> e = e') ->
    exists st', a_copy_edges X st = Ok st' /\ acinv st' /\ (exists l, ac_vertices st' = ac_vertices st ++ l) /\ (forall x, In x (dkeys (ac_vertices st')) <-> In x (dkeys (ac_vertices st)) \/ In x (map target X)) /\
      dkeys (ac_edges st') = dkeys (ac_edges st) ++ X /\ ((forall e o, In (e, o) (ac_edges st) -> o <> None) -> forall e o, In (e, o) (ac_edges st') -> o <> None).
  Proof using CB V0 T0.
    induction X as [|e X IH]; intros st C S N D DET.
    - exists st. split; [reflexivity|]. split; [exact C|]. split; [exists []; rewrite app_nil_r; reflexivity|]. split; [cbn; tauto|]. split; [rewrite app_nil_r; reflexivity|auto].
    - destruct S as [S1 S2]. inversion N as [|? ? N1 N2]; subst. destruct (a_copy_edge_inv e st C S1) as (st1 & e' & E1 & C1 & (l1 & PV1) & K1 & P1).
      { apply D; left; reflexivity. } { intros x I Es Ed. apply DET; [apply in_app_iff; auto|apply in_app_iff; right; left; reflexivity|exact Es|exact Ed]. }
      destruct (IH st1 C1) as (st' & E2 & C2 & (l2 & PV2) & K2 & P2 & SM).
      + revert S2. apply sourced_ext. intros x X1. apply K1, X1.
      + exact N2.
      + intros x I J. rewrite P1, dkeys_snoc in J. apply in_app_or in J. destruct J as [J|[J|[]]]; [apply (D x (or_intror I) J)|subst x; exact (N1 I)].
      + rewrite P1, dkeys_snoc, <- app_assoc. exact DET.
      + exists st'. cbn [a_copy_edges]. rewrite E1. cbn [rbind]. split; [exact E2|]. split; [exact C2|]. split; [exists (l1 ++ l2); rewrite PV2, PV1, app_assoc; reflexivity|]. split; [|split].
        * intros x. rewrite K2, K1. cbn. intuition.
        * rewrite P2, P1, dkeys_snoc, <- app_assoc. reflexivity.
        * intros SM0. apply SM. intros x o I. rewrite P1 in I. apply in_app_or in I. destruct I as [I|[[= <- <-]|[]]]; [apply (SM0 _ _ I)|discriminate].
  Qed.
End Copy.
