(** Theorem C141: the products of automata built in one of their operands, or in both. *)
From Verif Require Import Graph GraphProofs Automaton AutomatonSpec AutomatonProofs
  PBFS PBFSProofs PBFSProofs2 PBFSProofs3 ProductInto TProductInto ProductSelf Base BaseProofs.
#[local] Arguments dkeys : simpl never.

(** ** Specification *)
Section S.
  Context {A : Type} {EA : EqDec A}.

  (** The initial state and the targets of the transitions of [g] have been given by add_vertex. *)
  Definition no_dangling (g : aut A) : Prop :=
    (forall q, A_initial g = Some q -> q < au_last g) /\ (forall v a r, A_delta g v a = Some r -> r < au_last g).
  (** [g] has an initial state, and no transition leads to it. *)
  Definition leaves_initial (g : aut A) : Prop :=
    A_initial g <> None /\ (forall v a, A_delta g v a <> A_initial g).
End S.

Section P.
  Context {A : Type} {EA : EqDec A}.
  Variables (x1 x2 : option (aut A)) (g0 : aut A).
  Hypothesis ND : no_dangling g0.
  Notation k := (au_last g0).
  Notation G1 := (operand x1 g0).
  Notation G2 := (operand x2 g0).
  Notation pst := (aut A * dict qpair nat)%type.

  Definition seen (x : option (aut A)) (q : option nat) : Prop := match x, q with None, Some v => v < k | _, _ => True end.

  Variable op : bool -> bool -> bool.
  Variable P : qpair -> Prop.
  Definition fresh_initial (g : aut A) : Prop := exists n, A_initial g = Some n /\ k <= n.
  Hypothesis P_seen : forall p, P p -> seen x1 (fst p) /\ seen x2 (snd p).
  Hypothesis P_succ : forall p a, P p -> P (succ G1 G2 p a).
  Hypothesis P_agree : forall g p p', P p -> P p' -> p <> p' -> ini G1 G2 op p' = true -> fresh_initial g ->
    op (A_is_initial_opt (operand x1 g) (fst p)) (A_is_initial_opt (operand x2 g) (snd p)) = ini G1 G2 op p.

  Record J (s : pst) : Prop := {
    j_last : k <= au_last (fst s);
    j_adj : forall v, v < k -> dget (au_adj (fst s)) v = dget (au_adj g0) v;
    j_fin : forall v, v < k -> au_final (fst s) v = au_final g0 v;
    j_map : forall p v, dget (snd s) p = Some v -> k <= v /\ P p;
    j_ini : A_initial (fst s) = A_initial g0 \/ (fresh_initial (fst s) /\ exists p v, dget (snd s) p = Some v /\ ini G1 G2 op p = true) }.

  Lemma J_init : J (g0, []).
  Proof. constructor; cbn [fst snd]; auto. discriminate. Qed.

  Lemma j_delta s x q a : J s -> seen x q -> odelta (operand x (fst s)) q a = odelta (operand x g0) q a.
  Proof. intros I L. destruct x, q; try reflexivity. cbn in *. unfold A_delta. rewrite (j_adj s I _ L). reflexivity. Qed.
  Lemma j_edge s x q a : J s -> seen x q -> get_edge (operand x (fst s)) q a = get_edge (operand x g0) q a.
  Proof. intros I L. destruct x, q; try reflexivity. cbn in *. unfold A_delta. rewrite (j_adj s I _ L). reflexivity. Qed.
  Lemma j_sigma s x q : J s -> seen x q -> A_sigma (operand x (fst s)) q = A_sigma (operand x g0) q.
  Proof. intros I L. destruct x, q; try reflexivity. cbn in *. rewrite (j_adj s I _ L). reflexivity. Qed.

  Lemma op_fin s x (q : option nat) u (b : bool) : J s -> seen x q ->
    A_is_final_opt (operand x (let g := fst (A_add_vertex (fst s)) in if b then A_set_initial g u true else g)) q = A_is_final_opt (operand x g0) q.
  Proof.
    intros I L. destruct x, q; try reflexivity; cbn in *. destruct b; cbn; unfold A_is_final; cbn; apply (j_fin s I), L.
  Qed.
  Lemma op_ini s : J s -> forall p, P p -> dget (snd s) p = None -> forall g, A_initial g = A_initial (fst s) ->
    op (A_is_initial_opt (operand x1 g) (fst p)) (A_is_initial_opt (operand x2 g) (snd p)) = ini G1 G2 op p.
  Proof.
    intros I p Pp N g E. destruct (j_ini s I) as [Q|[F (p' & v & D & Y)]].
    - unfold ini. assert (X : forall x q, A_is_initial_opt (operand x g) q = A_is_initial_opt (operand x g0) q).
      { intros [x|] q; [reflexivity|]. cbn. unfold A_is_initial_opt. rewrite E, Q. reflexivity. }
      rewrite !X. reflexivity.
    - apply (P_agree g p p'); auto.
      + apply (j_map s I) in D. tauto.
      + intros ->. congruence.
      + destruct F as (n & F & L). exists n. rewrite E. auto.
  Qed.

  Lemma av_eq s p : J s -> P p -> dget (snd s) p = None ->
    self_add_vertex x1 x2 op s (fst p) (snd p) = add_product_vertex op G1 G2 s (fst p) (snd p) /\
    exists s' v, add_product_vertex op G1 G2 s (fst p) (snd p) = (s', Ok v) /\ J s' /\ k <= v.
  Proof.
    intros I Pp N. destruct (P_seen p Pp) as [S1 S2]. split.
    - destruct s as [g m]. unfold self_add_vertex, add_product_vertex, A_add_vertex. cbn [fst snd] in *.
      rewrite (op_ini (g, m) I p Pp N) by reflexivity. fold (ini G1 G2 op p).
      pose proof (op_fin (g, m) x1 (fst p) (Some (au_last g)) (ini G1 G2 op p) I S1) as F1.
      pose proof (op_fin (g, m) x2 (snd p) (Some (au_last g)) (ini G1 G2 op p) I S2) as F2.
      cbn [fst A_add_vertex] in F1, F2. rewrite F1, F2. reflexivity.
    - destruct s as [g m], p as [q1 q2]. unfold add_product_vertex, A_add_vertex. cbn [fst snd] in *.
      change (op (A_is_initial_opt G1 q1) (A_is_initial_opt G2 q2)) with (ini G1 G2 op (q1, q2)).
      set (f := op (A_is_final_opt G1 q1) (A_is_final_opt G2 q2)).
      eexists _, _. split; [reflexivity|]. destruct I as [I1 I2 I3 I4 I5]. cbn [fst snd] in *. split; [|exact I1].
      constructor; cbn [fst snd].
      + destruct f, (ini G1 G2 op (q1, q2)); cbn [A_set_final A_set_initial au_last]; lia.
      + intros v L. assert (X : dget (dset (au_adj g) (au_last g) []) v = dget (au_adj g0) v).
        { rewrite dget_dset. destruct (eqb_spec v (au_last g)); [lia|apply I2, L]. }
        destruct f, (ini G1 G2 op (q1, q2)); exact X.
      + intros v L. destruct f, (ini G1 G2 op (q1, q2)); cbn [A_set_final A_set_initial au_final]; try (apply I3, L);
          (destruct (eqb_spec v (au_last g)); [lia|apply I3, L]).
      + intros p v X. rewrite dget_dset in X. destruct (eqb_spec p (q1, q2)) as [->|]; [injection X as <-; auto|eapply I4; exact X].
      + destruct (ini G1 G2 op (q1, q2)) eqn:EI.
        * right. split; [exists (au_last g); destruct f; cbn; auto|]. exists (q1, q2), (au_last g). rewrite dget_dset, eqb_refl. auto.
        * destruct I5 as [I5|[(n & I5 & L) (p & v & X & Y)]].
          -- left. destruct f; exact I5.
          -- right. split; [exists n; destruct f; cbn; auto|]. exists p, v. split; [|exact Y]. rewrite dget_dset.
             destruct (eqb_spec p (q1, q2)) as [->|]; [congruence|exact X].
  Qed.

  Lemma gc_eq s p : J s -> P p ->
    self_get_or_create x1 x2 op s (fst p) (snd p) = get_or_create op G1 G2 s (fst p) (snd p) /\
    (forall s' o, get_or_create op G1 G2 s (fst p) (snd p) = (s', o) -> J s' /\ (forall v, o = Ok v -> k <= v)).
  Proof.
    intros I Pp.
    assert (R : dget (snd s) p = None \/ exists v, dget (snd s) p = Some v) by (destruct (dget (snd s) p); eauto).
    unfold self_get_or_create, get_or_create. destruct p as [[q1|] [q2|]]; cbn [fst snd] in *.
    4:{ split; [reflexivity|]. intros s' o X. injection X as <- <-. split; [exact I|discriminate]. }
    all: destruct R as [R|(v & R)]; rewrite R;
      [destruct (av_eq s _ I Pp R) as [X (s1 & v & Y & I1 & L)]; cbn [fst snd] in X, Y; rewrite X, Y; split; [reflexivity|];
       intros s' o Z; injection Z as <- <-; split; [exact I1|]; intros u Z; injection Z as <-; exact L
      |split; [reflexivity|]; intros s' o X; injection X as <- <-; split; [exact I|]; intros u Z; injection Z as <-; apply (j_map s I) in R; tauto].
  Qed.

  Lemma ae_eq s p a : J s -> P p ->
    self_add_edge x1 x2 op s (get_edge G1 (fst p) a) (get_edge G2 (snd p) a) a = add_product_edge op G1 G2 s (get_edge G1 (fst p) a) (get_edge G2 (snd p) a) a /\
    J (fst (add_product_edge op G1 G2 s (get_edge G1 (fst p) a) (get_edge G2 (snd p) a) a)).
  Proof.
    intros I Pp. unfold self_add_edge, add_product_edge. rewrite !source_get_edge, !target_get_edge.
    change (odelta G1 (fst p) a) with (fst (succ G1 G2 p a)). change (odelta G2 (snd p) a) with (snd (succ G1 G2 p a)).
    destruct (gc_eq s p I Pp) as [-> H]. destruct (get_or_create op G1 G2 s (fst p) (snd p)) as [s1 o1]. destruct (H _ _ eq_refl) as [I1 L1]. clear H.
    destruct o1 as [q12|e]; [|split; [reflexivity|exact I1]].
    destruct (gc_eq s1 _ I1 (P_succ p a Pp)) as [-> H]. destruct (get_or_create op G1 G2 s1 _ _) as [s2 o2]. destruct (H _ _ eq_refl) as [I2 L2]. clear H.
    destruct o2 as [r12|e]; [|split; [reflexivity|exact I2]].
    split; [reflexivity|]. specialize (L1 q12 eq_refl). destruct s2 as [g m]. cbn [fst snd]. unfold A_add_edge.
    destruct (negb _); [exact I2|]. destruct (dget (au_adj g) q12) as [d|]; [|exact I2]. cbn [fst].
    destruct I2 as [J1 J2 J3 J4 J5]. constructor; cbn [fst snd au_last au_adj au_final] in *; auto.
    intros v L. rewrite dget_dset. destruct (eqb_spec v q12); [lia|apply J2, L].
  Qed.

  Section Run.
    Variable ord : set_order A.
    Variables he he' : pst -> medge -> medge -> A -> pst * res unit.
    Variable push : medge -> medge -> bool.
    Hypothesis HE : forall s p a, J s -> P p ->
      he s (get_edge G1 (fst p) a) (get_edge G2 (snd p) a) a = he' s (get_edge G1 (fst p) a) (get_edge G2 (snd p) a) a /\
      J (fst (he' s (get_edge G1 (fst p) a) (get_edge G2 (snd p) a) a)).

    Lemma symbols_eq p : P p -> forall syms s stack col, J s -> Forall P stack ->
      self_symbols x1 x2 he push (fst p) (snd p) syms s stack col = symbols (fun _ => G1) G2 he' no_vertex push (fst p) (snd p) syms s stack col /\
      J (fst (fst (fst (symbols (fun _ => G1) G2 he' no_vertex push (fst p) (snd p) syms s stack col)))) /\
      Forall P (snd (fst (fst (symbols (fun _ => G1) G2 he' no_vertex push (fst p) (snd p) syms s stack col)))).
    Proof.
      intros Pp syms. destruct (P_seen p Pp) as [S1 S2]. induction syms as [|a syms IH]; intros s stack col I F; [split; [reflexivity|split; assumption]|].
      cbn [self_symbols symbols]. rewrite !(j_delta s) by assumption. rewrite !(j_edge s) by assumption.
      destruct (HE s p a I Pp) as [-> I1]. destruct (he' s _ _ a) as [s1 [[]|e]]; cbn [fst] in I1; [|split; [reflexivity|split; assumption]].
      destruct (is_white _); [|apply IH; assumption]. cbn [no_vertex]. apply IH; [exact I1|].
      destruct (push _ _); [|exact F]. apply Forall_app. split; [exact F|]. constructor; [exact (P_succ p a Pp)|constructor].
    Qed.

    Lemma loop_eq : forall fuel n s stack col, J s -> Forall P stack ->
      self_loop x1 x2 ord he push fuel n s stack col = pbfs_loop (fun _ => G1) G2 ord he' no_vertex push fuel n s stack col.
    Proof.
      induction fuel as [|fuel IH]; intros n s stack col I F; [reflexivity|]. cbn [self_loop pbfs_loop]. destruct stack as [|[q1 q2] stack]; [reflexivity|].
      inversion F as [|? ? Pp F']; subst. destruct (P_seen _ Pp) as [S1 S2]. cbn [fst snd] in S1, S2. rewrite !(j_sigma s) by assumption.
      set (syms := ord n _).
      destruct (symbols_eq (q1, q2) Pp syms s stack col I F') as (E & I' & F''). cbn [fst snd] in E, I', F''. rewrite E.
      destruct (symbols _ _ _ _ _ q1 q2 syms s stack col) as [[[s' st'] c'] [[]|e]]; [|reflexivity]. cbn [fst snd] in I', F''. apply IH; assumption.
    Qed.
  End Run.
End P.

(** ** The union: the two runs differ by the initial state only *)
Section U.
  Context {A : Type} {EA : EqDec A}.
  Variables (x1 x2 : option (aut A)) (g0 : aut A).
  Hypothesis ND : no_dangling g0.
  Notation k := (au_last g0).
  Notation G1 := (operand x1 g0).
  Notation G2 := (operand x2 g0).
  Notation pst := (aut A * dict qpair nat)%type.
  Notation start := (p0 G1 G2).
  Hypothesis O1 : forall g, x1 = Some g -> leaves_initial g.
  Hypothesis O2 : forall g, x2 = Some g -> leaves_initial g.

  Definition other (x : option (aut A)) (q : option nat) : Prop := match x with None => True | Some g => A_initial g <> q end.
  Definition Q (p : qpair) : Prop := seen g0 x1 (fst p) /\ seen g0 x2 (snd p) /\ (p = start \/ other x1 (fst p) /\ other x2 (snd p)).

  Lemma seen_initial x : seen g0 x (A_initial (operand x g0)).
  Proof. destruct x as [g|]; cbn; [exact I|]. destruct (A_initial g0) as [q|] eqn:E; [apply (proj1 ND), E|exact I]. Qed.
  Lemma seen_succ x q a : seen g0 x q -> seen g0 x (odelta (operand x g0) q a).
  Proof.
    intros S. destruct x as [g|]; cbn; [exact I|]. destruct q as [q|]; cbn; [|exact I]. destruct (A_delta g0 q a) as [r|] eqn:E; [|exact I].
    eapply (proj2 ND), E.
  Qed.
  Lemma other_succ x q a : (forall g, x = Some g -> leaves_initial g) -> other x (odelta (operand x g0) q a).
  Proof.
    intros O. destruct x as [g|]; cbn; [|exact I]. destruct (O g eq_refl) as [N L]. destruct q as [q|]; cbn; [|exact N].
    intros X. apply (L q a). symmetry. exact X.
  Qed.
  Lemma Q_start : Q start.
  Proof. split; [apply seen_initial|]. split; [apply seen_initial|left; reflexivity]. Qed.
  Lemma Q_succ p a : Q p -> Q (succ G1 G2 p a).
  Proof. intros (S1 & S2 & _). unfold Q, succ. cbn [fst snd]. split; [apply seen_succ, S1|]. split; [apply seen_succ, S2|]. right. split; apply other_succ; assumption. Qed.

  Definition phase1 (s : pst) : Prop := snd s = [] /\ au_last (fst s) = k /\ A_initial (fst s) = A_initial g0.
  Definition phase2 (s : pst) : Prop := dget (snd s) start = Some k /\ A_initial (fst s) = Some k.
  Record JK (s s' : pst) : Prop := {
    k_map : snd s = snd s';
    k_last' : au_last (fst s) = au_last (fst s');
    k_adj' : au_adj (fst s) = au_adj (fst s');
    k_fin' : forall v, au_final (fst s) v = au_final (fst s') v;
    k_last : k <= au_last (fst s);
    k_adj : forall v, v < k -> dget (au_adj (fst s)) v = dget (au_adj g0) v;
    k_fin : forall v, v < k -> au_final (fst s) v = au_final g0 v;
    k_dom : forall p v, dget (snd s) p = Some v -> k <= v }.

  Lemma JK_init : JK (g0, []) (g0, []).
  Proof. constructor; cbn [fst snd]; auto. discriminate. Qed.

  Lemma k_delta s s' x q a : JK s s' -> seen g0 x q -> odelta (operand x (fst s)) q a = odelta (operand x g0) q a.
  Proof. intros I L. destruct x, q; try reflexivity. cbn in *. unfold A_delta. rewrite (k_adj _ _ I _ L). reflexivity. Qed.
  Lemma k_edge s s' x q a : JK s s' -> seen g0 x q -> get_edge (operand x (fst s)) q a = get_edge (operand x g0) q a.
  Proof. intros I L. destruct x, q; try reflexivity. cbn in *. unfold A_delta. rewrite (k_adj _ _ I _ L). reflexivity. Qed.
  Lemma k_sigma s s' x q : JK s s' -> seen g0 x q -> A_sigma (operand x (fst s)) q = A_sigma (operand x g0) q.
  Proof. intros I L. destruct x, q; try reflexivity. cbn in *. rewrite (k_adj _ _ I _ L). reflexivity. Qed.

  Lemma av_rel s s' p : JK s s' -> Q p -> dget (snd s) p = None -> phase1 s /\ p = start \/ phase2 s ->
    exists t t' v, self_add_vertex x1 x2 orb s (fst p) (snd p) = (t, Ok v) /\ add_product_vertex orb G1 G2 s' (fst p) (snd p) = (t', Ok v) /\
      JK t t' /\ k <= v /\ phase2 t.
  Proof.
    intros I (S1 & S2 & Qp) N Ph. destruct s as [g m], s' as [g' m'], p as [q1 q2]. unfold self_add_vertex, add_product_vertex, A_add_vertex. cbn [fst snd] in *.
    set (gv := mkAut (S (au_last g)) (dset (au_adj g) (au_last g) []) (au_q0 g) (au_final g)).
    set (i := A_is_initial_opt (operand x1 gv) q1 || A_is_initial_opt (operand x2 gv) q2).
    set (i' := A_is_initial_opt G1 q1 || A_is_initial_opt G2 q2).
    set (gi := if i then A_set_initial gv (Some (au_last g)) true else gv).
    assert (F : forall x q, seen g0 x q -> A_is_final_opt (operand x gi) q = A_is_final_opt (operand x g0) q).
    { intros [x|] [q|] L; try reflexivity. cbn in L |- *. unfold A_is_final, gi. destruct i; apply (k_fin _ _ I), L. }
    rewrite (F x1 q1 S1), (F x2 q2 S2). set (f := A_is_final_opt G1 q1 || A_is_final_opt G2 q2).
    pose proof (k_last' _ _ I) as KL. pose proof (k_map _ _ I) as KM. cbn [fst snd] in KL, KM. subst m'. rewrite <- KL.
    eexists _, _, (au_last g). split; [reflexivity|]. split; [reflexivity|].
    destruct I as [I1 I2 I3 I4 I5 I6 I7 I8]. cbn [fst snd] in *.
    split; [|split; [exact I5|]].
    - constructor; cbn [fst snd].
      + reflexivity.
      + unfold gi. destruct f, i, i'; cbn [A_set_final A_set_initial au_last gv]; lia.
      + assert (X : dset (au_adj g) (au_last g) [] = dset (au_adj g') (au_last g) []) by congruence.
        unfold gi. destruct f, i, i'; exact X.
      + intros v. unfold gi. destruct f, i, i'; cbn [A_set_final A_set_initial au_final gv]; try apply I4; destruct (eqb v (au_last g)); auto.
      + unfold gi. destruct f, i; cbn [A_set_final A_set_initial au_last gv]; lia.
      + intros v L. assert (X : dget (dset (au_adj g) (au_last g) []) v = dget (au_adj g0) v).
        { rewrite dget_dset. destruct (eqb_spec v (au_last g)); [lia|apply I6, L]. }
        unfold gi. destruct f, i; exact X.
      + intros v L. unfold gi. destruct f, i; cbn [A_set_final A_set_initial au_final gv]; try (apply I7, L);
          (destruct (eqb_spec v (au_last g)); [lia|apply I7, L]).
      + intros p v X. rewrite dget_dset in X. destruct (eqb_spec p (q1, q2)) as [->|]; [injection X as <-; exact I5|eapply I8; exact X].
    - destruct Ph as [[(P1 & P2 & P3) Es]|[P1 P2]]; cbn [fst snd] in *.
      + assert (Ei : i = true).
        { unfold i. injection Es as -> ->. apply orb_true_iff. left. destruct x1 as [x|]; cbn; unfold A_is_initial_opt; [apply eqb_refl|].
          change (eqb (A_initial g) (A_initial g0) = true). rewrite P3. apply eqb_refl. }
        unfold phase2. cbn [fst snd]. split; [rewrite dget_dset, <- Es, eqb_refl; congruence|]. unfold gi. rewrite Ei. destruct f; cbn; congruence.
      + assert (Ei : i = false).
        { destruct Qp as [X|[T1 T2]]; [rewrite X in N; congruence|].
          assert (X : forall x q, seen g0 x q -> other x q -> A_is_initial_opt (operand x gv) q = false).
          { intros [x|] q S T; cbn [operand]; unfold A_is_initial_opt.
            - apply eqb_neq. exact T.
            - change (eqb (A_initial g) q = false). rewrite P2. apply eqb_neq. intros <-. cbn in S. lia. }
          unfold i. rewrite (X x1 q1 S1 T1), (X x2 q2 S2 T2). reflexivity. }
        unfold phase2. cbn [fst snd]. split.
        * rewrite dget_dset. destruct (eqb_spec start (q1, q2)) as [X|]; [rewrite X in P1; congruence|exact P1].
        * unfold gi. rewrite Ei. destruct f; exact P2.
  Qed.

  Lemma gc_rel s s' p : JK s s' -> Q p -> phase1 s /\ p = start \/ phase2 s ->
    (self_get_or_create x1 x2 orb s (fst p) (snd p) = (s, Raise RuntimeError) /\ get_or_create orb G1 G2 s' (fst p) (snd p) = (s', Raise RuntimeError)) \/
    exists t t' v, self_get_or_create x1 x2 orb s (fst p) (snd p) = (t, Ok v) /\ get_or_create orb G1 G2 s' (fst p) (snd p) = (t', Ok v) /\
      JK t t' /\ k <= v /\ phase2 t.
  Proof.
    intros I Qp Ph.
    assert (D : dget (snd s') p = dget (snd s) p) by (rewrite (k_map _ _ I); reflexivity).
    assert (R : dget (snd s) p = None \/ exists v, dget (snd s) p = Some v) by (destruct (dget (snd s) p); eauto).
    assert (P2 : forall v, dget (snd s) p = Some v -> phase2 s).
    { intros v X. destruct Ph as [[(E & _) _]|Ph]; [|exact Ph]. rewrite E in X. discriminate. }
    unfold self_get_or_create, get_or_create. destruct p as [[q1|] [q2|]]; cbn [fst snd] in *.
    4:{ left. auto. }
    all: right; rewrite D; destruct R as [R|(v & R)]; rewrite R;
      [apply (av_rel s s' (_, _) I Qp R Ph)|exists s, s', v; split; [reflexivity|]; split; [reflexivity|]; split; [exact I|]; split; [eapply (k_dom _ _ I); exact R|eapply P2; exact R]].
  Qed.

  Lemma ae_rel s s' p a : JK s s' -> Q p -> phase1 s /\ p = start \/ phase2 s ->
    exists t t' o, self_add_edge x1 x2 orb s (get_edge G1 (fst p) a) (get_edge G2 (snd p) a) a = (t, o) /\
      add_product_edge orb G1 G2 s' (get_edge G1 (fst p) a) (get_edge G2 (snd p) a) a = (t', o) /\
      JK t t' /\ (o = Ok tt -> phase2 t).
  Proof.
    intros I Qp Ph. unfold self_add_edge, add_product_edge. rewrite !source_get_edge, !target_get_edge.
    change (odelta G1 (fst p) a) with (fst (succ G1 G2 p a)). change (odelta G2 (snd p) a) with (snd (succ G1 G2 p a)).
    destruct (gc_rel s s' p I Qp Ph) as [[-> ->]|(t & t' & v & -> & -> & I1 & L1 & Ph1)].
    { exists s, s', (Raise RuntimeError). split; [reflexivity|]. split; [reflexivity|]. split; [exact I|discriminate]. }
    destruct (gc_rel t t' _ I1 (Q_succ p a Qp) (or_intror Ph1)) as [[-> ->]|(u & u' & r & -> & -> & I2 & L2 & Ph2)].
    { exists t, t', (Raise RuntimeError). split; [reflexivity|]. split; [reflexivity|]. split; [exact I1|discriminate]. }
    destruct u as [g m], u' as [g' m']. cbn [fst snd]. unfold A_add_edge, A_delta.
    pose proof (k_adj' _ _ I2) as KA. cbn [fst] in KA. rewrite <- KA.
    assert (Keep : forall o, exists w w' o', (g, m, o) = (w, o') /\ (g', m', o) = (w', o') /\ JK w w' /\ (o' = Ok tt -> phase2 w)).
    { intros o. exists (g, m), (g', m'), o. auto. }
    match goal with |- context [negb ?c] => destruct (negb c) end; [apply Keep|].
    destruct (dget (au_adj g) v) as [d|]; [|apply Keep].
    eexists _, _, (Ok tt). split; [reflexivity|]. split; [reflexivity|]. split; [|intros _; exact Ph2].
    destruct I2 as [J1 J2 J3 J4 J5 J6 J7 J8]. cbn [fst snd] in *. constructor; cbn [fst snd au_last au_adj au_final]; auto.
    intros z L. rewrite dget_dset. destruct (eqb_spec z v); [lia|apply J6, L].
  Qed.

  Variable ord : set_order A.

  Lemma symbols_rel p : Q p -> forall syms s s' stack col, JK s s' -> Forall Q stack -> phase1 s /\ p = start /\ stack = [] \/ phase2 s ->
    exists t t' st c o, self_symbols x1 x2 (self_add_edge x1 x2 orb) always_push (fst p) (snd p) syms s stack col = (t, st, c, o) /\
      symbols (fun _ => G1) G2 (add_product_edge orb G1 G2) no_vertex always_push (fst p) (snd p) syms s' stack col = (t', st, c, o) /\
      JK t t' /\ Forall Q st /\ (o = Ok tt -> phase1 t /\ st = [] \/ phase2 t).
  Proof.
    intros Qp syms. pose proof Qp as (S1 & S2 & _). induction syms as [|a syms IH]; intros s s' stack col I F Ph.
    - exists s, s', stack, col, (Ok tt). do 4 (split; [auto|]). intros _. destruct Ph as [(X & _ & Y)|X]; auto.
    - cbn [self_symbols symbols]. rewrite !(k_delta s s') by assumption. rewrite !(k_edge s s') by assumption.
      destruct (ae_rel s s' p a I Qp) as (t & t' & o & -> & -> & I1 & Ph1); [tauto|].
      destruct o as [[]|e].
      2:{ exists t, t', stack, col, (Raise e). do 4 (split; [auto|]). discriminate. }
      specialize (Ph1 eq_refl). destruct (is_white _); [|apply IH; auto]. cbn [no_vertex always_push]. apply IH; auto.
      apply Forall_app. split; [exact F|]. constructor; [exact (Q_succ p a Qp)|constructor].
  Qed.

  Lemma loop_rel : forall fuel n s s' stack col, JK s s' -> Forall Q stack -> phase1 s /\ (stack = [] \/ stack = [start]) \/ phase2 s ->
    match self_loop x1 x2 ord (self_add_edge x1 x2 orb) always_push fuel n s stack col, pbfs_loop (fun _ => G1) G2 ord (add_product_edge orb G1 G2) no_vertex always_push fuel n s' stack col with
    | None, None => True
    | Some (t, o), Some (t', o') => o = o' /\ JK t t' /\ (o = Ok tt -> phase1 t \/ phase2 t)
    | _, _ => False
    end.
  Proof.
    induction fuel as [|fuel IH]; intros n s s' stack col I F Ph; [exact Logic.I|]. cbn [self_loop pbfs_loop]. destruct stack as [|[q1 q2] stack].
    - split; [reflexivity|]. split; [exact I|]. tauto.
    - inversion F as [|? ? Qp F']; subst. pose proof Qp as (S1 & S2 & _). cbn [fst snd] in S1, S2. rewrite !(k_sigma s s') by assumption.
      set (syms := ord n _).
      destruct (symbols_rel (q1, q2) Qp syms s s' stack col I F') as (t & t' & st & c & o & E & E' & I' & F'' & Ph').
      { destruct Ph as [[P1 [X|X]]|P2]; [discriminate| |right; exact P2]. left. injection X as -> -> ->. auto. }
      cbn [fst snd] in E, E'. rewrite E, E'. destruct o as [[]|e]; [|split; [reflexivity|split; [exact I'|discriminate]]].
      apply IH; [exact I'|exact F''|]. destruct (Ph' eq_refl) as [[X ->]|X]; auto.
  Qed.
End U.

Section T.
  Context {A : Type} {EA : EqDec A}.

  (** C141: deterministic_intersection with [g12] among its operands does what it does with copies of the operands. *)
  Theorem C141_intersection (x1 x2 : option (aut A)) (g0 : aut A) ord fuel : no_dangling g0 ->
    self_intersection x1 x2 g0 ord fuel = deterministic_intersection_in (operand x1 g0) (operand x2 g0) (Some g0) ord fuel.
  Proof.
    intros ND. unfold self_intersection, deterministic_intersection_in, pbfs. cbn [no_vertex given_or_new].
    set (P := fun p : qpair => seen g0 x1 (fst p) /\ seen g0 x2 (snd p)).
    assert (PS : forall p a, P p -> P (succ (operand x1 g0) (operand x2 g0) p a)).
    { intros p a [S1 S2]. split; apply seen_succ; assumption. }
    assert (PA : forall g p p', P p -> P p' -> p <> p' -> ini (operand x1 g0) (operand x2 g0) andb p' = true -> fresh_initial g0 g ->
      A_is_initial_opt (operand x1 g) (fst p) && A_is_initial_opt (operand x2 g) (snd p) = ini (operand x1 g0) (operand x2 g0) andb p).
    { intros g [q1 q2] [r1 r2] [S1 S2] _ NE IP (n & F & L). cbn [fst snd] in *. unfold ini in *. cbn [fst snd] in *.
      apply andb_true_iff in IP. destruct IP as [I1 I2]. unfold A_is_initial_opt in I1, I2. apply (proj1 (eqb_eq _ _)) in I1, I2. subst r1 r2.
      assert (Z : A_is_initial_opt (operand x1 g0) q1 && A_is_initial_opt (operand x2 g0) q2 = false).
      { apply andb_false_iff. unfold A_is_initial_opt. destruct (eqb_spec (A_initial (operand x1 g0)) q1) as [X|]; [|auto].
        right. apply eqb_neq. intros Y. apply NE. congruence. }
      assert (X : forall q, seen g0 None q -> A_is_initial_opt g q = false).
      { intros q S. unfold A_is_initial_opt. rewrite F. apply eqb_neq. intros <-. cbn in S. lia. }
      destruct x1 as [y1|]; [destruct x2 as [y2|]|]; cbn [operand] in *.
      - reflexivity.
      - rewrite (X q2 S2), Z. apply andb_false_r.
      - rewrite (X q1 S1), Z. reflexivity. }
    rewrite (loop_eq x1 x2 g0 andb P (fun p X => X) PS ord (self_inter_edge x1 x2) (inter_edge (operand x1 g0) (operand x2 g0)) inter_push); [reflexivity| | |].
    - intros s p a I Pp. pose proof (ae_eq x1 x2 g0 andb P (fun p X => X) PS PA s p a I Pp) as X. revert X. unfold self_inter_edge, inter_edge.
      destruct (get_edge (operand x1 g0) (fst p) a) as [[q1 [r1|]]|]; [|split; [reflexivity|exact I]|split; [reflexivity|exact I]].
      destruct (get_edge (operand x2 g0) (snd p) a) as [[q2 [r2|]]|]; [|split; [reflexivity|exact I]|split; [reflexivity|exact I]].
      auto.
    - apply J_init.
    - constructor; [|constructor]. split; apply seen_initial; exact ND.
  Qed.

  (** C141: so does deterministic_union when no transition of [g12] leads to its initial state. *)
  Theorem C141_union_copies (x1 x2 : option (aut A)) (g0 : aut A) ord fuel : no_dangling g0 -> leaves_initial g0 ->
    self_union x1 x2 g0 ord fuel = deterministic_union_in (operand x1 g0) (operand x2 g0) (Some g0) ord fuel.
  Proof.
    intros ND [LN LI]. unfold self_union, deterministic_union_in, pbfs. cbn [no_vertex given_or_new].
    set (own := fun (x : option (aut A)) (q : option nat) => match x with None => A_initial g0 <> q | Some _ => True end).
    set (start := p0 (operand x1 g0) (operand x2 g0)).
    set (P := fun p : qpair => (seen g0 x1 (fst p) /\ seen g0 x2 (snd p)) /\ (p = start \/ own x1 (fst p) /\ own x2 (snd p))).
    assert (PSe : forall p, P p -> seen g0 x1 (fst p) /\ seen g0 x2 (snd p)) by (intros p [X _]; exact X).
    assert (Own : forall x q a, own x (odelta (operand x g0) q a)).
    { intros [x|] [q|] a; cbn; try exact I; [|exact LN]. intros X. apply (LI q a). symmetry. exact X. }
    assert (PS : forall p a, P p -> P (succ (operand x1 g0) (operand x2 g0) p a)).
    { intros p a [[S1 S2] _]. split; [split; apply seen_succ; assumption|]. right. split; apply Own. }
    assert (PA : forall g p p', P p -> P p' -> p <> p' -> ini (operand x1 g0) (operand x2 g0) orb p' = true -> fresh_initial g0 g ->
      A_is_initial_opt (operand x1 g) (fst p) || A_is_initial_opt (operand x2 g) (snd p) = ini (operand x1 g0) (operand x2 g0) orb p).
    { intros g p p' [[S1 S2] C] [_ C'] NE IP (n & F & L). 
      assert (X : forall q, seen g0 None q -> A_is_initial_opt g q = false).
      { intros q S. unfold A_is_initial_opt. rewrite F. apply eqb_neq. intros <-. cbn in S. lia. }
      assert (Y : forall x q, seen g0 x q -> own x q -> A_is_initial_opt (operand x g) q = A_is_initial_opt (operand x g0) q).
      { intros [x|] q S O; [reflexivity|]. cbn [operand]. rewrite (X q S). symmetry. apply eqb_neq. exact O. }
      destruct C as [C|[C1 C2]]; [|unfold ini; rewrite (Y x1 _ S1 C1), (Y x2 _ S2 C2); reflexivity].
      subst p. unfold ini, start, PBFSProofs2.p0. cbn [fst snd].
      assert (E : forall h : aut A, A_is_initial_opt h (A_initial h) = true) by (intros h; apply eqb_refl).
      rewrite !E. destruct C' as [C'|[C1 C2]]; [congruence|]. destruct x1 as [y1|]; cbn [operand own] in *; [rewrite E; reflexivity|].
      destruct x2 as [y2|]; cbn [operand own] in *; [rewrite E; apply orb_true_r|]. exfalso. unfold ini, A_is_initial_opt in IP.
      apply orb_true_iff in IP. destruct IP as [IP|IP]; apply (proj1 (eqb_eq _ _)) in IP; contradiction. }
    rewrite (loop_eq x1 x2 g0 orb P PSe PS ord (self_add_edge x1 x2 orb) (add_product_edge orb (operand x1 g0) (operand x2 g0)) always_push); [reflexivity| | |].
    - intros s p a I Pp. apply (ae_eq x1 x2 g0 orb P PSe PS PA s p a I Pp).
    - apply J_init.
    - constructor; [|constructor]. split; [split; apply seen_initial; exact ND|left; reflexivity].
  Qed.

  Lemma union_states (g1 g2 g : aut A) ord fuel : numbered g -> valid_order ord ->
    (A_num_edges g1 + 1) * (A_num_edges g2 + 1) + 2 <= fuel ->
    exists dom s t E M, pbfs (fun _ => g1) g2 ord no_vertex (add_product_edge orb g1 g2) no_vertex always_push fuel (A_init 0, []) = Some (s, Ok tt) /\
      pbfs (fun _ => g1) g2 ord no_vertex (add_product_edge orb g1 g2) no_vertex always_push fuel (g, []) = Some (t, Ok tt) /\
      Pinv g1 g2 orb dom s E M /\ rel g1 g2 g orb s t /\
      (forall p a, E (p, a) <-> exists w, p = pw g1 g2 w /\ live (pw g1 g2 (w ++ [a]))) /\
      (forall q, M q <-> exists p a, E (p, a) /\ (q = p \/ q = succ g1 g2 p a)).
  Proof.
    intros NG OV L. destruct (always_events g1 g2 ord OV fuel L) as (ev & R & _ & HE & _ & _).
    rewrite !R. cbn [no_vertex].
    set (dom := fun p => live p /\ exists w, p = pw g1 g2 w).
    assert (DL : forall p, dom p -> live p) by (intros p [Lp _]; exact Lp).
    assert (HV : forall p a, In (EvEdge p a) ev -> (True /\ dom p /\ dom (succ g1 g2 p a) /\
      forall s, add_product_edge orb g1 g2 s (get_edge g1 (fst p) a) (get_edge g2 (snd p) a) a = add_product_edge orb g1 g2 s (get_edge g1 (fst p) a) (get_edge g2 (snd p) a) a) \/
      (~ True /\ forall s, add_product_edge orb g1 g2 s (get_edge g1 (fst p) a) (get_edge g2 (snd p) a) a = (s, Ok tt))).
    { intros p a X. left. apply HE in X. destruct X as (w & -> & Lw). split; [exact I|]. split; [|split].
      - split; [eapply live_snoc; exact Lw|exists w; reflexivity].
      - rewrite <- pw_snoc. split; [exact Lw|eexists; reflexivity].
      - reflexivity. }
    pose proof (Pinv_init g1 g2 orb dom) as I0.
    destruct (product_fold g1 g2 orb dom DL (fun _ _ => True) (add_product_edge orb g1 g2) ev HV _ _ _ I0) as (s & E & I').
    destruct (rel_fold g1 g2 g NG orb dom DL (fun _ _ => True) (add_product_edge orb g1 g2) ev HV _ _ _ _ I0 (rel_init g1 g2 g NG orb)) as (t & t' & F & F' & RL).
    rewrite E in F. injection F as <-. rewrite E, F'.
    exists dom, s, t'. eexists _, _. do 2 (split; [reflexivity|]). split; [exact I'|]. split; [exact RL|]. split.
    - intros p a. rewrite <- HE. cbn [fst snd]. tauto.
    - intros q. split.
      + intros [[]|(p & a & Ie & _ & X)]. exists p, a. split; [right; auto|exact X].
      + intros (p & a & [[]|[Ie _]] & X). right. exists p, a. auto.
  Qed.

  (** C141: deterministic_union with [g12] among its operands, when no transition of the other operand leads to its
      initial state: the union stands beside [g12], its first state is initial, and it accepts the words of the operands. *)
  Theorem C141_union (x1 x2 : option (aut A)) (g0 : aut A) ord fuel : no_dangling g0 -> numbered g0 ->
    (forall g, x1 = Some g -> leaves_initial g) -> (forall g, x2 = Some g -> leaves_initial g) -> valid_order ord ->
    (A_num_edges (operand x1 g0) + 1) * (A_num_edges (operand x2 g0) + 1) + 2 <= fuel ->
    exists d h, deterministic_union (operand x1 g0) (operand x2 g0) ord fuel = Some (d, Ok tt) /\ self_union x1 x2 g0 ord fuel = Some (h, Ok tt) /\
      beside g0 (A_set_initial d (Some 0) true) h /\
      (A_vertices d <> [] -> (forall v, au_last g0 <= v -> A_is_final g0 v = false) ->
         forall w, A_accepts h w = A_accepts (operand x1 g0) w || A_accepts (operand x2 g0) w) /\
      (A_vertices d = [] <-> forall a, A_delta_word (operand x1 g0) (A_initial (operand x1 g0)) [a] = None /\ A_delta_word (operand x2 g0) (A_initial (operand x2 g0)) [a] = None).
  Proof.
    intros ND NG O1 O2 OV L. set (g1 := operand x1 g0) in *. set (g2 := operand x2 g0) in *. set (k := au_last g0).
    destruct (union_states g1 g2 g0 ord fuel NG OV L) as (dom & s & t' & E & M & E1 & E2 & PI & RL & HE & HM).
    unfold deterministic_union, self_union. rewrite E1.
    unfold pbfs in E2. cbn [no_vertex] in E2.
    pose proof (loop_rel x1 x2 g0 ND O1 O2 ord fuel 0 (g0, []) (g0, []) [p0 g1 g2] []) as LR. fold g1 g2 in LR.
    specialize (LR (JK_init g0)). change (PBFSProofs2.p0 g1 g2) with (A_initial g1, A_initial g2) in LR. rewrite E2 in LR.
    specialize (LR (Forall_cons _ (Q_start x1 x2 g0 ND) (Forall_nil _))).
    specialize (LR (or_introl (conj (conj eq_refl (conj eq_refl eq_refl)) (or_intror eq_refl)))).
    destruct (self_loop _ _ _ _ _ _ _ _ _ _) as [[t o]|]; [|destruct LR]. destruct LR as (-> & JK & Ph). specialize (Ph eq_refl).
    destruct s as [d m], t as [h mt], t' as [h' m']. exists d, h. split; [reflexivity|]. split; [reflexivity|].
    destruct JK as [K1 K2 K3 K4 K5 K6 K7 K8]. destruct RL as [R1 R2 R3 R4 R5 R6 R7 R8]. cbn [fst snd] in *. subst mt.
    assert (V : A_vertices h = A_vertices h') by (unfold A_vertices; rewrite K3; reflexivity).
    assert (D : forall v a, A_delta h v a = A_delta h' v a) by (intros v a; unfold A_delta; rewrite K3; reflexivity).
    assert (NE : A_vertices d <> [] <-> exists p, M p).
    { split.
      - intros X. destruct (A_vertices d) as [|v l] eqn:Y; [congruence|]. destruct (proj2 (v_all _ _ _ _ _ _ _ PI) v) as (p & Z); [cbn; rewrite Y; left; reflexivity|].
        exists p. apply (v_dom _ _ _ _ _ _ _ PI). congruence.
      - intros (p & X) Y. apply (v_dom _ _ _ _ _ _ _ PI) in X. cbn [snd] in X. destruct (dget m p) as [v|] eqn:Z; [|congruence].
        apply (v_map _ _ _ _ _ _ _ PI) in Z. cbn [fst] in Z. rewrite Y in Z. destruct Z as [[] _]. }
    assert (Q0 : A_vertices d = [] /\ A_initial h = A_initial g0 \/ A_vertices d <> [] /\ A_initial h = Some k /\ dget m (p0 g1 g2) = Some 0).
    { destruct Ph as [(P1 & _ & P3)|[P1 P2]]; cbn [fst snd] in *.
      - left. split; [|exact P3]. destruct (A_vertices d) as [|v l] eqn:Y; [reflexivity|]. exfalso.
        destruct (proj1 NE) as (p & X); [discriminate|]. apply (v_dom _ _ _ _ _ _ _ PI) in X. cbn [snd] in X. specialize (R7 p). rewrite P1 in R7.
        destruct (dget m p); [discriminate|congruence].
      - right. specialize (R7 (p0 g1 g2)). change (dget m' (p0 g1 g2) = Some k) in P1. rewrite P1 in R7.
        destruct (dget m (p0 g1 g2)) as [v|] eqn:Y; [|discriminate]. cbn in R7. injection R7 as R7. assert (v = 0) by (unfold k in R7; lia). subst v.
        split; [|split; [exact P2|reflexivity]]. apply NE. exists (p0 g1 g2). apply (v_dom _ _ _ _ _ _ _ PI). cbn [snd]. congruence. }
    assert (B : beside g0 (A_set_initial d (Some 0) true) h).
    { constructor.
      - rewrite V. exact R2.
      - intros v a X. rewrite D. apply R3, X.
      - intros v a. rewrite D. apply R4.
      - intros v X. unfold A_is_final. rewrite K4. apply R5, X.
      - intros v. unfold A_is_final at 1. rewrite K4. apply R6.
      - change (A_vertices (A_set_initial d (Some 0) true)) with (A_vertices d).
        destruct Q0 as [[X Y]|(X & Y & _)]; [rewrite X; exact Y|]. rewrite Y. destruct (A_vertices d); [congruence|]. cbn. unfold k. f_equal. lia.
      - intros v X. rewrite V, R2 in X. rewrite K2, R1. apply in_app_iff in X. destruct X as [X|X]; [apply NG in X; lia|].
        apply in_map_iff in X. destruct X as (u & <- & X). apply (v_lt _ _ _ _ _ _ _ PI) in X. cbn in X. lia. }
    split; [exact B|].
    assert (First : forall w a, live (pw g1 g2 (w ++ [a])) -> exists b, live (pw g1 g2 [b])).
    { intros w. induction w as [|c w IH] using rev_ind; intros a La; [exists a; exact La|]. apply IH with c. eapply live_snoc. exact La. }
    split.
    - intros Nd NF w. destruct Q0 as [[X _]|(_ & Y & Z)]; [congruence|].
      assert (W : forall w q, A_delta_word h (Some (k + q)) w = option_map (fun v => k + v) (A_delta_word d (Some q) w)).
      { destruct B as [_ _ B3 _ _ _ _]. clear -B3. induction w as [|a w IH]; intros q; [reflexivity|]. cbn [A_delta_word]. rewrite B3.
        change (A_delta (A_set_initial d (Some 0) true) q a) with (A_delta d q a). destruct (A_delta d q a); [apply IH|]. cbn. rewrite delta_word_None. symmetry.
        rewrite delta_word_None. reflexivity. }
      unfold A_accepts at 1. rewrite Y. replace k with (k + 0) by lia. rewrite W.
      pose proof (product_word g1 g2 orb dom _ _ _ PI w (p0 g1 g2) 0 Z) as PW. cbn [fst snd] in PW. rewrite pwf_pw in PW.
      assert (Fin : forall b b' : bool, (b = true <-> b' = true) -> b = b') by (intros [] [] [F1 F2]; auto; symmetry; auto).
      apply Fin. rewrite orb_true_iff, !accepts_final.
      change (A_is_final_opt g1 (A_delta_word g1 (A_initial g1) w)) with (fin1 g1 (pw g1 g2 w)).
      change (A_is_final_opt g2 (A_delta_word g2 (A_initial g2) w)) with (fin2 g2 (pw g1 g2 w)). rewrite <- orb_true_iff.
      destruct (A_delta_word d (Some 0) w) as [r|] eqn:Er; cbn [option_map].
      + destruct (proj1 (PW r) eq_refl) as [_ PD]. unfold A_is_final. rewrite K4. change (A_is_final h' (k + r) = true <-> fin1 g1 (pw g1 g2 w) || fin2 g2 (pw g1 g2 w) = true).
        unfold k. rewrite R6, NF by lia. cbn [orb]. rewrite (v_fin _ _ _ _ _ _ _ PI r). cbn [snd]. split.
        * intros (p & X1 & X2). assert (p = pw g1 g2 w) by (eapply (v_inj _ _ _ _ _ _ _ PI); eassumption). subst p. exact X2.
        * intros X2. exists (pw g1 g2 w). auto.
      + split; [discriminate|]. intros F. exfalso.
        assert (Lw : live (pw g1 g2 w)) by (intros X; rewrite X in F; discriminate).
        assert (Wk : walk g1 g2 E (p0 g1 g2) w).
        { apply walk_pw. intros u a v ->. apply HE. exists u. split; [reflexivity|]. revert Lw. clear.
          induction v as [|c v IH] using rev_ind; [auto|]. intros X. apply IH. apply live_snoc with c. rewrite <- app_assoc. exact X. }
        assert (Mw : M (pw g1 g2 w)).
        { revert Lw. pattern w. apply rev_ind.
          - intros _. apply (v_dom _ _ _ _ _ _ _ PI). change (dget m (p0 g1 g2) <> None). congruence.
          - intros a u _ Lu. rewrite pw_snoc. apply HM. exists (pw g1 g2 u), a. split; [|auto]. apply HE. exists u. auto. }
        apply (v_dom _ _ _ _ _ _ _ PI) in Mw. cbn [snd] in Mw. destruct (dget m (pw g1 g2 w)) as [y|] eqn:Ey; [|congruence].
        specialize (proj2 (PW y) (conj Wk eq_refl)). discriminate.
    - split.
      + intros X a. assert (NM : ~ live (pw g1 g2 [a])).
        { intros La. apply (proj2 NE); [|exact X]. exists (p0 g1 g2). apply HM. exists (p0 g1 g2), a. split; [|auto]. apply HE. exists []. auto. }
        unfold live, pw in NM. destruct (A_delta_word g1 _ [a]), (A_delta_word g2 _ [a]); auto; exfalso; apply NM; discriminate.
      + intros X. destruct (A_vertices d) as [|v l] eqn:Y; [reflexivity|]. exfalso. destruct (proj1 NE) as (q & Mq); [discriminate|].
        apply HM in Mq. destruct Mq as (p & a & Ep & _). apply HE in Ep. destruct Ep as (w & _ & Lw). destruct (First w a Lw) as (b & Lb).
        apply Lb. unfold pw. destruct (X b) as [-> ->]. reflexivity.
  Qed.
End T.
Print Assumptions C141_intersection.
Print Assumptions C141_union_copies.
Print Assumptions C141_union.

(** C141: "the product built in an operand is the product of copies" fails for the union when a transition leads to the
    initial state of [g12] (here the copies lose the word b, the union in place accepts it), and "it accepts the words of
    the operands" fails when a transition leads to the initial state of the other operand. *)
Definition se_loop : aut nat := fst (runs A_call (A_init 1) [AAddEdge 0 0 1; ASetFinal 0 true]).
Definition se_b : aut nat := fst (runs A_call (A_init 2) [AAddEdge 0 1 2; ASetFinal 1 true]).
Theorem C141_union_refuted : exists (g0 g2 h h' hx : aut nat) w,
  no_dangling g0 /\ no_dangling g2 /\
  self_union None (Some g2) g0 (fun _ l => l) 20 = Some (h, Ok tt) /\ deterministic_union_in g0 g2 (Some g0) (fun _ l => l) 20 = Some (h', Ok tt) /\
  A_accepts h w = true /\ A_accepts h' w = false /\
  self_union None (Some g0) g2 (fun _ l => l) 20 = Some (hx, Ok tt) /\ A_accepts g2 w = true /\ A_accepts hx w = false.
Proof.
  exists se_loop, se_b. eexists _, _, _. exists [2].
  assert (N : forall g : aut nat, (g = se_loop \/ g = se_b) -> no_dangling g).
  { intros g G. split.
    - intros q. destruct G as [->| ->]; intros X; injection X as <-; cbn; lia.
    - intros v a r X. destruct G as [->| ->]; destruct v as [|[|v]]; cbn in X; try discriminate X;
        destruct a as [|[|[|a]]]; cbn in X; try discriminate X; injection X as <-; cbn; lia. }
  split; [apply N; auto|]. split; [apply N; auto|]. repeat (split; [vm_compute; reflexivity|]). vm_compute; reflexivity.
Qed.
Print Assumptions C141_union_refuted.

(** ** A dangling transition to the number that the first state of the product takes *)
(** The pair (u, u) is next: its product state is S u, whose only transition will go to the next product state. *)
Record chased (u : nat) (s : aut nat * dict qpair nat) (col : dict qpair color) : Prop := {
  ch_pos : 0 < u;
  ch_here : dget (snd s) (Some u, Some u) = Some (S u);
  ch_new : forall x, u < x -> dget (snd s) (Some x, Some x) = None;
  ch_next : au_last (fst s) = S (S u);
  ch_adj : dget (au_adj (fst s)) u = Some [(1, S u)];
  ch_last : dget (au_adj (fst s)) (S u) = Some [];
  ch_col : forall x, u < x -> color_of col (Some x, Some x) = WHITE }.
Lemma chase ord : valid_order ord -> forall fuel n u s col, chased u s col ->
  self_loop None None ord (self_inter_edge None None) inter_push fuel n s [(Some u, Some u)] col = None.
Proof.
  intros OV. induction fuel as [|fuel IH]; intros n u [g m] col [C0 C1 C2 C3 C4 C5 C6]; [reflexivity|]. cbn [self_loop fst snd operand] in *.
  assert (E : ord n (sunion (A_sigma g (Some u)) (A_sigma g (Some u))) = [1]).
  { unfold A_sigma. rewrite C4. apply Permutation_length_1_inv, Permutation_sym. exact (OV n [1]). }
  rewrite E. cbn [self_symbols fst operand odelta get_edge].
  assert (D : A_delta g u 1 = Some (S u)) by (unfold A_delta; rewrite C4; reflexivity).
  rewrite D. cbn [self_inter_edge]. unfold self_add_edge. cbn [medge_source medge_target self_get_or_create snd]. rewrite C1. cbn [self_get_or_create snd]. rewrite (C2 (S u)) by lia.
  unfold self_add_vertex, A_add_vertex. cbn [operand]. rewrite C3.
  set (gv := mkAut _ _ _ _). cbv zeta.
  match goal with |- context [A_add_edge (fst (?gg, _)) _ _ _] => assert (EG : au_adj gg = dset (au_adj g) (S (S u)) [] /\ au_last gg = S (S (S u))) by (split; repeat match goal with |- context [if ?c then _ else _] => destruct c end; reflexivity); set (gx := gg) in * end.
  destruct EG as [EA EL]. cbn [fst snd]. unfold A_add_edge, A_delta. rewrite EA, dget_dset_other by lia. rewrite C5. cbn [dget negb].
  rewrite (C6 (S u)) by lia. cbn [is_white]. cbn [inter_push truthy_target andb]. destruct u as [|u]; [lia|]. cbn [inter_push truthy_target andb app]. 
  apply IH. constructor; cbn [fst snd au_last au_adj].
  - lia.
  - apply dget_dset_same.
  - intros x L. rewrite dget_dset_other by (intros X; injection X as ->; lia). apply C2. lia.
  - exact EL.
  - rewrite dget_dset_same. reflexivity.
  - rewrite dget_dset_other by lia. apply dget_dset_same.
  - intros x L. unfold color_of. rewrite !dget_dset_other by (intros X; injection X as ->; lia). apply C6. lia.
Qed.
(** C141 without the hypothesis on the targets: the intersection in place never ends. *)
Theorem C141_dangling : exists n (ops : list (aop nat)), let g := fst (runs A_call (A_init n) ops) in
  forall ord, valid_order ord -> forall fuel, self_intersection None None g ord fuel = None.
Proof.
  exists 1, [AAddEdge 0 1 1]. intros g ord OV fuel. unfold self_intersection.
  match goal with |- match ?x with _ => _ end = _ => enough (X : x = None) by (rewrite X; reflexivity) end.
  destruct fuel as [|fuel]; [reflexivity|]. cbn [self_loop fst operand].
  assert (E : ord 0 (sunion (A_sigma g (A_initial g)) (A_sigma g (A_initial g))) = [1]).
  { apply Permutation_length_1_inv, Permutation_sym. exact (OV 0 [1]). }
  rewrite E. cbn -[self_loop]. apply chase; [exact OV|]. constructor; try reflexivity; [lia| |].
  - intros [|[|x]] L; [lia|lia|reflexivity].
  - intros [|[|x]] L; [lia|lia|reflexivity].
Qed.
Print Assumptions C141_dangling.

(** The hypotheses on concrete cases: the union in place with another automaton, the intersection of
    a copy with the automaton itself, the union of a* with itself. *)
Definition se_ab : aut nat := fst (runs A_call (A_init 3) [AAddEdge 0 1 1; AAddEdge 1 2 2; ASetFinal 2 true]).
Example C141_example :
  no_dangling se_ab /\ numbered se_ab /\ leaves_initial se_ab /\ leaves_initial se_b /\ (forall v, au_last se_ab <= v -> A_is_final se_ab v = false) /\
  match self_union None (Some se_b) se_ab (fun _ l => l) 30 with
  | Some (h, Ok _) => A_vertices h = [0; 1; 2; 3; 4; 5; 6] /\ A_initial h = Some 3 /\ map (A_accepts h) [[1; 2]; [2]; [1]; [2; 2]] = [true; true; false; false]
  | _ => False
  end /\
  match self_intersection (Some se_ab) None se_ab (fun _ l => l) 30 with
  | Some (h, Ok _) => A_vertices h = [0; 1; 2; 3; 4; 5] /\ A_initial h = Some 3 /\ map (A_accepts h) [[1; 2]; [2]] = [true; false]
  | _ => False
  end /\
  match self_union None None se_loop (fun _ l => l) 30 with
  | Some (h, Ok _) => A_vertices h = [0; 1] /\ A_initial h = Some 1 /\ A_delta h 1 1 = Some 1 /\ map (A_accepts h) [[]; [1; 1]; [2]] = [true; true; false]
  | _ => False
  end.
Proof.
  assert (N : forall g : aut nat, (g = se_ab \/ g = se_b) -> no_dangling g /\ leaves_initial g).
  { intros g G. split; split.
    - intros q. destruct G as [->| ->]; intros X; injection X as <-; cbn; lia.
    - intros v a r X. destruct G as [->| ->]; destruct v as [|[|[|v]]]; cbn in X; try discriminate X;
        destruct a as [|[|[|a]]]; cbn in X; try discriminate X; injection X as <-; cbn; lia.
    - destruct G as [->| ->]; discriminate.
    - intros v a X. destruct G as [->| ->]; destruct v as [|[|[|v]]]; cbn in X; try discriminate X;
        destruct a as [|[|[|a]]]; cbn in X; discriminate X. }
  split; [apply N; auto|]. split; [apply C139_numbered|]. split; [apply N; auto|]. split; [apply N; auto|].
  split; [intros [|[|[|v]]] L; [cbn in L; lia..|reflexivity]|].
  split; [vm_compute; repeat split|]. split; vm_compute; repeat split.
Qed.
