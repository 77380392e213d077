(** Lemmas for C136. *)
From Verif Require Import Base BaseProofs Graph GraphProofs Automaton AutomatonSpec AutomatonProofs
  Trie TrieSpec TrieProofs PBFS PBFSProofs PBFSProofs2 PBFSProofs3 ProductStatesSpec.
#[local] Arguments dkeys : simpl never.

Section P.
  Context {A : Type} {EA : EqDec A}.
  Variable g1 g2 : aut A.
  Notation p0 := (p0 g1 g2).
  Notation pw := (pw g1 g2).
  Notation succ := (succ g1 g2).
  Notation fin1 := (fin1 g1).
  Notation fin2 := (fin2 g2).

  Lemma pair_step_succ p a : pair_step g1 g2 p a = succ p a.
  Proof.
    destruct p as [[q1|] [q2|]]; unfold pair_step, PBFSProofs.succ; cbn; try reflexivity;
      try (destruct (A_delta g1 q1 a)); try (destruct (A_delta g2 q2 a)); reflexivity.
  Qed.

  Definition pair_of (m : dict qpair nat) (v : nat) : qpair :=
    match find (fun p => eqb (dget m p) (Some v)) (dkeys m) with Some p => p | None => (None, None) end.

  Section Inv.
    Variables (op : bool -> bool -> bool) (dom : qpair -> Prop) (g : aut A) (m : dict qpair nat) (E : qpair * A -> Prop) (M : qpair -> Prop).
    Hypothesis I : Pinv g1 g2 op dom (g, m) E M.

    Lemma pair_of_spec p v : dget m p = Some v -> pair_of m v = p.
    Proof.
      intros D. unfold pair_of. destruct (find (fun p => eqb (dget m p) (Some v)) (dkeys m)) as [q|] eqn:F.
      - apply find_some in F. destruct F as [_ F]. apply (proj1 (eqb_eq _ _)) in F. apply (v_inj _ _ _ _ _ _ _ I q p v F D).
      - exfalso. assert (X := find_none _ _ F p (dget_Some_key _ _ _ D)). cbn beta in X. rewrite D, eqb_refl in X. discriminate.
    Qed.
    Lemma pair_of_dget v : In v (A_vertices g) -> dget m (pair_of m v) = Some v.
    Proof. intros Iv. destruct (proj2 (v_all _ _ _ _ _ _ _ I) v Iv) as (p & D). cbn in D. rewrite (pair_of_spec _ _ D). exact D. Qed.

    Lemma Pinv_product : product_of g1 g2 g op M (fun p a => E (p, a)) (pair_of m).
    Proof.
      constructor.
      - apply (v_all _ _ _ _ _ _ _ I).
      - intros v Iv. apply (v_dom _ _ _ _ _ _ _ I). cbn. rewrite (pair_of_dget v Iv). discriminate.
      - intros p Mp. apply (v_dom _ _ _ _ _ _ _ I) in Mp. cbn in Mp. destruct (dget m p) as [v|] eqn:D; [|congruence].
        exists v. split; [apply (v_map _ _ _ _ _ _ _ I p v D)|apply pair_of_spec; exact D].
      - intros v v' Iv Iv' X. apply pair_of_dget in Iv, Iv'. rewrite X in Iv. congruence.
      - intros v a r Iv. pose proof (pair_of_dget v Iv) as Dv. rewrite pair_step_succ. etransitivity; [apply (v_edge _ _ _ _ _ _ _ I)|]. cbn [fst snd]. split.
        + intros (p & X & Y & Z). assert (p = pair_of m v) by (symmetry; apply pair_of_spec; exact X). subst p.
          split; [exact Y|]. split; [apply (v_map _ _ _ _ _ _ _ I _ _ Z)|apply pair_of_spec; exact Z].
        + intros (Y & Ir & X). exists (pair_of m v). split; [exact Dv|]. split; [exact Y|]. rewrite <- X. apply pair_of_dget. exact Ir.
      - intros v Iv. pose proof (pair_of_dget v Iv) as Dv.
        change (A_is_final g v = op (fin1 (pair_of m v)) (fin2 (pair_of m v))).
        destruct (A_is_final g v) eqn:F.
        + apply (v_fin _ _ _ _ _ _ _ I) in F. destruct F as (p & X & Y). apply pair_of_spec in X. rewrite X. symmetry. exact Y.
        + destruct (op (fin1 (pair_of m v)) (fin2 (pair_of m v))) eqn:O; [|reflexivity].
          assert (X : A_is_final g v = true) by (apply (v_fin _ _ _ _ _ _ _ I); exists (pair_of m v); auto). congruence.
    Qed.
  End Inv.

  Lemma product_of_ext g op M M' E E' f : product_of g1 g2 g op M E f -> (forall p, M p <-> M' p) ->
    (forall p a, M p -> (E p a <-> E' p a)) -> product_of g1 g2 g op M' E' f.
  Proof.
    intros [H1 H2 H3 H4 H5 H6] HM HE. constructor; try assumption.
    - intros v Iv. apply HM, H2, Iv.
    - intros p X. apply H3, HM, X.
    - intros v a r Iv. rewrite (H5 v a r Iv), (HE _ a (H2 v Iv)). reflexivity.
  Qed.

  (** ** Union *)
  Lemma union_states ord fuel : valid_order ord -> pbfs_fuel g1 g2 <= fuel ->
    exists g12 f, deterministic_union g1 g2 ord fuel = Some (g12, Ok tt) /\
      product_of g1 g2 g12 orb (fun p => live p /\ (exists w, p = pw w) /\ exists a, live (pw [a])) (fun p a => live (succ p a)) f /\
      ((exists a, live (pw [a])) -> exists v, A_initial g12 = Some v /\ In v (A_vertices g12) /\ (fst (f v) = A_initial g1 \/ snd (f v) = A_initial g2)).
  Proof.
    intros OV L. destruct (always_events g1 g2 ord OV fuel L) as (ev & R & _ & HE & _ & _).
    unfold deterministic_union. rewrite R. cbn [no_vertex].
    set (dom := fun p => live p /\ exists w, p = pw w).
    destruct (product_fold g1 g2 orb dom) with (sel := fun (_ : qpair) (_ : A) => True) (he := add_product_edge orb g1 g2) (ev := ev)
      (s := (A_init (A:=A) 0, @nil (qpair * nat))) (E := fun _ : qpair * A => False) (M := fun _ : qpair => False) as (s' & E' & I').
    - intros p [Lp _]. exact Lp.
    - intros p a X. left. apply HE in X. destruct X as (w & -> & Lw). split; [exact I|]. split; [|split].
      + split; [eapply live_snoc; exact Lw|exists w; reflexivity].
      + rewrite <- pw_snoc. split; [exact Lw|eexists; reflexivity].
      + reflexivity.
    - apply Pinv_init.
    - rewrite E'. destruct s' as [g12 m]. exists g12, (pair_of m). split; [reflexivity|].
      assert (Pre : forall w a, live (pw (a :: w)) -> live (pw [a])).
      { intros w a. induction w as [|c w IH] using rev_ind; [auto|]. intros X. apply IH. apply live_snoc with c.
        rewrite <- app_comm_cons. exact X. }
      assert (Fst : forall w a, live (pw (w ++ [a])) -> exists b, live (pw [b])).
      { intros [|b w] a X; [exists a; exact X|]. exists b. apply (Pre (w ++ [a])). exact X. }
      assert (HM : forall p, (False \/ exists q a, In (EvEdge q a) ev /\ True /\ (p = q \/ p = succ q a)) <->
                live p /\ (exists w, p = pw w) /\ exists a, live (pw [a])).
      { intros p. split.
        - intros [[]|(q & a & Ie & _ & Mp)]. apply HE in Ie. destruct Ie as (w & -> & Lw). destruct Mp as [-> | ->].
          + split; [eapply live_snoc; exact Lw|]. split; [exists w; reflexivity|eapply Fst; exact Lw].
          + rewrite <- pw_snoc. split; [exact Lw|]. split; [eexists; reflexivity|eapply Fst; exact Lw].
        - intros (Lp & (w & ->) & (a & La)). right. destruct w as [|b w _] using rev_ind.
          + exists p0, a. split; [apply HE; exists []; split; [reflexivity|exact La]|]. auto.
          + exists (pw w), b. split; [apply HE; exists w; auto|]. rewrite pw_snoc. auto. }
      split.
      + eapply product_of_ext; [exact (Pinv_product orb dom g12 m _ _ I')|exact HM|].
        intros p a Mp. apply HM in Mp. destruct Mp as (Lp & (w & ->) & _). cbn [fst snd]. split.
        * intros [[]|[Ie _]]. apply HE in Ie. destruct Ie as (u & Eu & Lu). rewrite Eu, <- pw_snoc. exact Lu.
        * intros X. right. split; [|exact I]. apply HE. exists w. rewrite pw_snoc. auto.
      + intros C. destruct (v_q0 _ _ _ _ _ _ _ I') as [(p & v & D & Ip & Eq)|N].
        * exists v. split; [exact Eq|]. split; [apply (v_map _ _ _ _ _ _ _ I' p v D)|]. rewrite (pair_of_spec _ _ _ _ _ _ I' p v D).
          unfold ini, A_is_initial_opt in Ip. apply orb_true_iff in Ip.
          destruct Ip as [Ip|Ip]; apply (proj1 (eqb_eq _ _)) in Ip; [left|right]; symmetry; exact Ip.
        * exfalso. assert (X : ini g1 g2 orb p0 = false).
          { apply N. apply HM. destruct C as (a & La). split; [apply live_snoc with (w := []) (a := a); exact La|].
            split; [exists []; reflexivity|exists a; exact La]. }
          unfold ini, A_is_initial_opt, PBFSProofs2.p0 in X. cbn [fst snd] in X. rewrite !eqb_refl in X. discriminate.
  Qed.

  (** ** Intersection *)
  Lemma expl_word p : expl g1 g2 inter_pp p0 p -> exists w, p = pw w /\ zero_free g1 g2 w.
  Proof.
    intros E. induction E as [|p a E (w & Ew & Z) Lp Pp].
    - exists []. split; [reflexivity|]. intros u a v X. destruct u; discriminate.
    - exists (w ++ [a]). split; [rewrite pw_snoc, <- Ew; reflexivity|]. intros u b v X.
      destruct v as [|c v _] using rev_ind.
      + apply app_inj_tail in X. destruct X as [-> _]. rewrite <- Ew. apply expl_zero_free. exact E.
      + rewrite app_comm_cons, app_assoc in X. apply app_inj_tail in X. destruct X as [-> _]. apply (Z u b v). reflexivity.
  Qed.

  Definition inter_state (p : qpair) : Prop :=
    exists w, p = pw w /\ both p /\ (w <> [] \/ exists a, both (pw [a])) /\ zero_free g1 g2 w.

  Lemma inter_states ord fuel : A_initial g1 <> None -> A_initial g2 <> None -> valid_order ord -> pbfs_fuel g1 g2 <= fuel ->
    exists g12 f, deterministic_intersection g1 g2 ord fuel = Some (g12, Ok tt) /\
      product_of g1 g2 g12 andb inter_state (fun p a => both (succ p a) /\ (p = p0 \/ inter_pp p = true)) f /\
      ((exists a, both (pw [a])) -> exists v, A_initial g12 = Some v /\ In v (A_vertices g12) /\ f v = p0).
  Proof.
    intros N1 N2 OV L.
    assert (B0 : both p0) by (split; assumption).
    destruct (pbfs_events g1 g2 ord inter_push inter_pp OV) with (fuel := fuel) as (ev & R & _ & HE & _ & _); [|exact L|].
    { intros p a E _. apply (inter_expl_both g1 g2 B0) in E. destruct p as [[q1|] [q2|]], E as [E1 E2]; try (cbn in *; congruence).
      unfold inter_push, PBFSProofs.succ. cbn. destruct (A_delta g1 q1 a) as [[|x]|], (A_delta g2 q2 a) as [[|y]|]; reflexivity. }
    unfold deterministic_intersection. rewrite R. cbn [no_vertex].
    destruct (product_fold g1 g2 andb both) with (sel := fun p a => both (succ p a)) (he := inter_edge g1 g2) (ev := ev)
      (s := (A_init (A:=A) 0, @nil (qpair * nat))) (E := fun _ : qpair * A => False) (M := fun _ : qpair => False) as (s' & E' & I').
    - apply both_live.
    - intros p a X. apply HE in X. destruct X as [E Lp]. apply (inter_expl_both g1 g2 B0) in E.
      destruct p as [[q1|] [q2|]], E as [E1 E2]; try (cbn in *; congruence).
      unfold both, PBFSProofs.succ, inter_edge. cbn.
      destruct (A_delta g1 q1 a) as [x|]; [destruct (A_delta g2 q2 a) as [y|]|].
      + left. repeat split; try discriminate.
      + right. split; [intros [_ X]; congruence|reflexivity].
      + right. split; [intros [X _]; congruence|reflexivity].
    - apply Pinv_init.
    - rewrite E'. destruct s' as [g12 m]. exists g12, (pair_of m). split; [reflexivity|].
      assert (Old : forall w a, zero_free g1 g2 (w ++ [a]) -> both (pw (w ++ [a])) -> expl g1 g2 inter_pp p0 (pw w)).
      { intros w a Z B. apply (zero_free_expl g1 g2 (w ++ [a]) Z B w a []). reflexivity. }
      assert (HM : forall p, (False \/ exists q a, In (EvEdge q a) ev /\ both (succ q a) /\ (p = q \/ p = succ q a)) <-> inter_state p).
      { intros p. split.
        - intros [[]|(q & a & Ie & Bs & Mp)]. apply HE in Ie. destruct Ie as [Eq _].
          destruct (expl_word q Eq) as (w & Ew & Z). destruct Mp as [-> | ->].
          + exists w. split; [exact Ew|]. split; [apply (inter_expl_both g1 g2 B0); exact Eq|]. split; [|exact Z].
            destruct w as [|b w]; [|left; discriminate]. right. exists a. change [a] with ([] ++ [a]). rewrite pw_snoc, <- Ew. exact Bs.
          + exists (w ++ [a]). split; [rewrite pw_snoc, <- Ew; reflexivity|]. split; [exact Bs|]. split; [left; destruct w; discriminate|].
            intros u b v X. destruct v as [|c v _] using rev_ind.
            * apply app_inj_tail in X. destruct X as [-> _]. rewrite <- Ew. apply expl_zero_free. exact Eq.
            * rewrite app_comm_cons, app_assoc in X. apply app_inj_tail in X. destruct X as [-> _]. apply (Z u b v). reflexivity.
        - intros (w & -> & B & C & Z). right. destruct w as [|a w _] using rev_ind.
          + destruct C as [C|(a & Ba)]; [congruence|]. change [a] with ([] ++ [a]) in Ba. rewrite pw_snoc in Ba. exists p0, a. split; [|auto].
            apply HE. split; [apply expl_0|apply both_live; exact Ba].
          + exists (pw w), a. rewrite pw_snoc in *. split; [|auto]. apply HE. split; [|apply both_live; exact B].
            apply (Old w a Z). rewrite pw_snoc. exact B. }
      split.
      + eapply product_of_ext; [exact (Pinv_product andb both g12 m _ _ I')|exact HM|].
        intros p a Mp. apply HM in Mp. cbn [fst snd]. split.
        * intros [[]|[Ie Bs]]. split; [exact Bs|]. apply HE in Ie. apply expl_zero_free. apply Ie.
        * intros [Bs Hp]. right. split; [|exact Bs]. apply HE. split; [|apply both_live; exact Bs].
          destruct Hp as [->|Pp]; [apply expl_0|]. destruct Mp as (w & -> & B & _ & Z). destruct w as [|b w _] using rev_ind; [apply expl_0|].
          pose proof (Old w b Z B) as Ew. rewrite pw_snoc in *. apply expl_S; [exact Ew|apply both_live; exact B|exact Pp].
      + intros (a & Ba). destruct (v_q0 _ _ _ _ _ _ _ I') as [(p & v & D & Ip & Eq)|N].
        * exists v. split; [exact Eq|]. split; [apply (v_map _ _ _ _ _ _ _ I' p v D)|]. rewrite (pair_of_spec _ _ _ _ _ _ I' p v D).
          unfold ini, A_is_initial_opt in Ip. apply andb_true_iff in Ip. destruct Ip as [X Y].
          apply (proj1 (eqb_eq _ _)) in X. apply (proj1 (eqb_eq _ _)) in Y. destruct p as [q1 q2]. cbn [fst snd] in *.
          unfold PBFSProofs2.p0. congruence.
        * exfalso. assert (X : ini g1 g2 andb p0 = false).
          { apply N. apply HM. exists []. split; [reflexivity|]. split; [exact B0|]. split; [right; exists a; exact Ba|].
            intros u b v Y. destruct u; discriminate. }
          unfold ini, A_is_initial_opt, PBFSProofs2.p0 in X. cbn [fst snd] in X. rewrite !eqb_refl in X. discriminate.
  Qed.
End P.

(** Counting. *)
Lemma count_pairs {X} (f : nat -> X) (L : list nat) (P : list X) : NoDup L ->
  (forall v v', In v L -> In v' L -> f v = f v' -> v = v') -> (forall v, In v L -> In (f v) P) -> length L <= length P.
Proof.
  intros N J H. rewrite <- (map_length f L). apply NoDup_incl_length.
  - clear H. induction L as [|x L IH]; cbn; [constructor|]. inversion_clear N. constructor.
    + intros X'. apply in_map_iff in X'. destruct X' as (y & E & Iy). assert (y = x) by (apply J; [right; exact Iy|left; reflexivity|exact E]). subst y. contradiction.
    + apply IH; [assumption|]. intros v v' Iv Iv'. apply J; right; assumption.
  - intros x Ix. apply in_map_iff in Ix. destruct Ix as (v & <- & Iv). apply H, Iv.
Qed.
