(** Lemmas on topological_sort, cut, graph_extract. *)
From Verif Require Import Base BaseProofs Graph Search SearchSpec SearchProofs SearchProofs2 SearchUsers SearchUsersSpec.
#[local] Arguments dkeys : simpl never.

Lemma steps_iff {X} (R R' : X -> X -> Prop) : (forall x y, R x y <-> R' x y) -> forall x y, steps R x y <-> steps R' x y.
Proof. intros H x y. split; apply steps_sub; intros; apply H; assumption. Qed.
Lemma plus_iff {X} (R R' : X -> X -> Prop) : (forall x y, R x y <-> R' x y) -> forall x y, plus R x y <-> plus R' x y.
Proof. intros H x y. split; intros (z & A & B); exists z; (split; [apply H, A|]); revert B; apply steps_sub; intros; apply H; assumption. Qed.

Section Users.
  Context {E : Type} {EE : EqDec E}.
  Variables (out_edges : nat -> list E) (source target : E -> nat).
  Notation arc := (arc out_edges target).

  Lemma next_all u v : next out_edges target all_edges u v <-> arc u v.
  Proof. split; [intros (e & I & _ & T); exists e; auto|intros (e & I & T); exists e; auto]. Qed.
  Lemma u_edges_all u : u_edges out_edges all_edges u = out_edges u.
  Proof. unfold u_edges. induction (out_edges u); cbn; congruence. Qed.

  (** ** topological_sort *)
  Lemma topo_calls (t : list (event E)) : forall stack, calls topo_visitor t stack = match back_edges t with [] => Ok (rev (finished t) ++ stack) | _ => Raise RuntimeError end.
  Proof.
    induction t as [|x t IH]; intros stack; [reflexivity|]. cbn [calls].
    destruct x; cbn [topo_visitor rbind]; try (rewrite IH; reflexivity).
    - reflexivity.
    - rewrite IH. change (finished (Finish v :: t)) with (v :: finished t). change (back_edges (Finish v :: t)) with (back_edges t).
      cbn [rev]. destruct (back_edges t); [|reflexivity]. rewrite <- app_assoc. reflexivity.
  Qed.

  (** ** cut *)
  Section Cut.
    Variables (in_cut : E -> bool).
    Hypothesis SRC : forall u e, In e (out_edges u) -> source e = u.
    Notation free := (fun e => negb (in_cut e)).
    Notation vrun := (vrun out_edges target free).
    Notation eruns := (eruns out_edges target free).
    Notation u_edges := (u_edges out_edges free).

    Definition lf (t : list (event E)) (L : list nat) : list nat :=
      fold_left (fun L x => match x with Examine e => srem (source e) L | Discover u => sadd u L | _ => L end) t L.
    Definition ce (t : list (event E)) (C : list E) : list E :=
      fold_left (fun C x => match x with Ask e => if in_cut e then sadd e C else C | _ => C end) t C.
    Lemma cut_calls t : forall L C, calls (cut_visitor source in_cut) t (L, C) = Ok (lf t L, ce t C).
    Proof. induction t as [|x t IH]; intros L C; [reflexivity|]. cbn [calls]. destruct x; cbn [cut_visitor rbind]; rewrite IH; reflexivity. Qed.
    Lemma lf_app t t' L : lf (t ++ t') L = lf t' (lf t L).
    Proof. apply fold_left_app. Qed.
    Lemma In_ce t : forall C e, In e (ce t C) <-> In e C \/ In e (asked t) /\ in_cut e = true.
    Proof.
      induction t as [|x t IH]; intros C e; [cbn; tauto|]. change (ce (x :: t) C) with (ce t (match x with Ask e => if in_cut e then sadd e C else C | _ => C end)).
      rewrite IH. destruct x as [v|v|v|v|e'|e'|e'|e'|e'|e'|e'|e'|v]; try (reflexivity). change (asked (Ask e' :: t)) with (e' :: asked t). cbn [In].
      destruct (in_cut e') eqn:I; [rewrite In_sadd|]; split; intros; intuition (subst; auto); congruence.
    Qed.
    Lemma lf_asks a : Forall is_ask a -> forall L, lf a L = L.
    Proof. induction 1 as [|x a H F IH]; intros L; [reflexivity|]. destruct x; try destruct H. apply IH. Qed.

    Lemma run_leaves :
      (forall v c a t c', vrun v c a t c' -> forall L x, In x (lf t L) <-> (In x (discovered t) /\ u_edges x = []) \/ (~ In x (discovered t) /\ In x L)) /\
      (forall u es c t c', eruns u es c t c' -> color_of c u <> WHITE -> incl es (u_edges u) -> forall L x, In x (lf t L) <->
         (In x (discovered t) /\ u_edges x = []) \/ (~ In x (discovered t) /\ In x L /\ (x = u -> es = []))).
    Proof.
      assert (STEP : forall u e k es t c c', k = Back e \/ k = ForwardOrCross e -> eruns u es c t c' -> color_of c u <> WHITE -> incl (e :: es) (u_edges u) ->
        (forall L x, In x (lf t L) <-> (In x (discovered t) /\ u_edges x = []) \/ (~ In x (discovered t) /\ In x L /\ (x = u -> es = []))) ->
        forall L x, In x (lf (Examine e :: k :: t) L) <-> (In x (discovered (Examine e :: k :: t)) /\ u_edges x = []) \/
          (~ In x (discovered (Examine e :: k :: t)) /\ In x L /\ (x = u -> e :: es = []))).
      { intros u e k es t c c' K V NW EI IH L x.
        assert (P : discovered (Examine e :: k :: t) = discovered t) by (destruct K as [-> | ->]; reflexivity).
        assert (Q : lf (Examine e :: k :: t) L = lf t (srem u L)).
        { rewrite <- (SRC u e); [destruct K as [-> | ->]; reflexivity|]. assert (I : In e (u_edges u)) by (apply EI; left; reflexivity). apply filter_In in I. apply I. }
        rewrite P, Q, IH, In_srem. destruct (eq_dec x u) as [->|N]; [|intuition congruence].
        split; [|intros [H|(A & B & C)]; [left; exact H|specialize (C eq_refl); discriminate]]. intros [H|(A & B & D)]; [left; exact H|destruct B; congruence]. }
      apply run_ind.
      - intros v c a t c' A W R IH L x.
        assert (C : color_of (dset c v GRAY) v <> WHITE) by (rewrite color_dset, eqb_refl; discriminate).
        specialize (IH C (incl_refl _)). destruct (vproj v a t A) as (P1 & _). rewrite P1. cbn [In].
        pose proof (proj2 (run_facts out_edges target free) _ _ _ _ _ R) as F.
        assert (NV : ~ In v (discovered t)). { intros X. apply (f_disc _ _ _ F) in X. tauto. }
        change (Discover v :: a ++ t ++ [Finish v]) with ([Discover v] ++ a ++ t ++ [Finish v]). rewrite !lf_app, (lf_asks a) by exact A.
        change (In x (lf t (sadd v L)) <-> (v = x \/ In x (discovered t)) /\ u_edges x = [] \/ ~ (v = x \/ In x (discovered t)) /\ In x L).
        rewrite IH, In_sadd. destruct (eq_dec x v) as [->|N]; [|intuition congruence]. intuition.
      - intros u c NW _ L x. cbn. intuition.
      - intros u e es c t1 c1 t2 c2 W V1 A V2 B NW EI L x. destruct (tproj e t1 _ t2 (asks_ask out_edges u)) as (P1 & _). rewrite P1.
        pose proof (proj1 (run_facts out_edges target free) _ _ _ _ _ V1) as F1. pose proof (proj2 (run_facts out_edges target free) _ _ _ _ _ V2) as F2.
        change (Examine e :: Tree e :: t1 ++ asks out_edges u ++ t2) with ([Examine e; Tree e] ++ t1 ++ asks out_edges u ++ t2).
        rewrite !lf_app, (lf_asks (asks out_edges u)) by apply asks_ask.
        assert (Q : lf [Examine e; Tree e] L = srem u L).
        { rewrite <- (SRC u e); [reflexivity|]. assert (I : In e (u_edges u)) by (apply EI; left; reflexivity). apply filter_In in I. apply I. }
        rewrite Q, B, A, In_srem, in_app_iff;
          [|rewrite (nonwhite _ _ _ _ F1 NW); exact NW|intros y Y; apply EI; right; exact Y].
        assert (D12 : In x (discovered t1) -> ~ In x (discovered t2)). { intros X Y. apply (f_disc _ _ _ F1) in X. apply (f_disc _ _ _ F2) in Y. destruct X, Y. congruence. }
        assert (U1 : ~ In u (discovered t1)). { intros X. apply (f_disc _ _ _ F1) in X. tauto. }
        destruct (eq_dec x u) as [->|N]; [|intuition congruence].
        destruct (in_dec' u (discovered t2)) as [I|I]; [tauto|]. split; [|intros [H|(_ & _ & C)]; [tauto|specialize (C eq_refl); discriminate]].
        intros [H|(_ & [H|(_ & H)] & _)]; [tauto|tauto|destruct H; congruence].
      - intros u e es c t c' G V IH NW EI. apply (STEP u e (Back e) es t c c'); auto. apply IH; [exact NW|]. intros y Y. apply EI. right. exact Y.
      - intros u e es c t c' G V IH NW EI. apply (STEP u e (ForwardOrCross e) es t c c'); auto. apply IH; [exact NW|]. intros y Y. apply EI. right. exact Y.
    Qed.

    Lemma asked_app (t t' : list (event E)) : asked (t ++ t') = asked t ++ asked t'.
    Proof. apply flat_map_app. Qed.
    Lemma asked_asks u : asked (asks out_edges u) = out_edges u.
    Proof. unfold asks. induction (out_edges u) as [|e l IH]; [reflexivity|]. change (e :: asked (map Ask l) = e :: l). rewrite IH. reflexivity. Qed.
    Lemma run_asked :
      (forall v c a t c', vrun v c a t c' -> (forall e, In e (asked a) <-> In e (out_edges v)) -> forall e, In e (asked t) <-> exists u, In u (discovered t) /\ In e (out_edges u)) /\
      (forall u es c t c', eruns u es c t c' -> forall e, (In e (asked t) -> In e (out_edges u) \/ exists x, In x (discovered t) /\ In e (out_edges x)) /\
         ((exists x, In x (discovered t) /\ In e (out_edges x)) -> In e (asked t))).
    Proof.
      apply run_ind.
      - intros v c a t c' A W R IH HA e. destruct (vproj v a t A) as (P1 & _). rewrite P1.
        change (Discover v :: a ++ t ++ [Finish v]) with ([Discover v] ++ a ++ t ++ [Finish v]). rewrite !asked_app. change (asked [Discover v]) with (@nil E).
        change (asked [Finish v]) with (@nil E). rewrite app_nil_r. cbn [app]. rewrite in_app_iff, HA. destruct (IH e) as [I1 I2]. split.
        + intros [X|X]; [exists v; split; [left; reflexivity|exact X]|]. destruct (I1 X) as [Y|(x & Y & Z)]; [exists v; split; [left; reflexivity|exact Y]|exists x; split; [right; exact Y|exact Z]].
        + intros (x & [<-|X] & Y); [left; exact Y|right; apply I2; exists x; auto].
      - intros u c e. split; [intros []|intros (x & [] & _)].
      - intros u e' es c t1 c1 t2 c2 W V1 A V2 B e. destruct (tproj e' t1 _ t2 (asks_ask out_edges u)) as (P1 & _). rewrite P1.
        change (Examine e' :: Tree e' :: t1 ++ asks out_edges u ++ t2) with ([Examine e'; Tree e'] ++ t1 ++ asks out_edges u ++ t2).
        rewrite !asked_app, asked_asks. change (asked [Examine e'; Tree e']) with (@nil E). cbn [app]. rewrite !in_app_iff.
        specialize (A (fun e => eq_ind_r (fun l => In e l <-> In e (out_edges (target e'))) (iff_refl _) (asked_asks (target e'))) e). destruct (B e) as [B1 B2]. split.
        + intros [X|[X|X]]; [apply A in X; destruct X as (x & X & Y); right; exists x; rewrite in_app_iff; auto|left; exact X|].
          destruct (B1 X) as [Y|(x & Y & Z)]; [left; exact Y|right; exists x; rewrite in_app_iff; auto].
        + intros (x & X & Y). apply in_app_or in X. destruct X as [X|X]; [left; apply A; exists x; auto|right; right; apply B2; exists x; auto].
      - intros u e' es c t c' G V IH e. exact (IH e).
      - intros u e' es c t c' G V IH e. exact (IH e).
    Qed.
  End Cut.

  (** ** graph_extract *)
  Section Extract.
    Variables (vrelevant : nat -> bool) (erelevant : E -> bool).
    Notation rel := (fun e => erelevant e && vrelevant (target e)).
    Definition cb_vertices (l : list (@callback E)) : list nat := flat_map (fun x => match x with OnVertex u => [u] | _ => [] end) l.
    Definition cb_edges (l : list (@callback E)) : list E := flat_map (fun x => match x with OnEdge e => [e] | _ => [] end) l.
    Lemma extract_calls t : forall st, Forall (fun e => rel e = true) (examined t) -> exists st', calls (extract_visitor target vrelevant erelevant) t st = Ok st' /\
      cb_vertices st' = cb_vertices st ++ discovered t /\ cb_edges st' = cb_edges st ++ examined t.
    Proof.
      induction t as [|x t IH]; intros st H; [exists st; cbn; rewrite !app_nil_r; auto|]. cbn [calls]. destruct x; cbn [extract_visitor rbind]; try (apply IH; exact H).
      - destruct (IH (st ++ [OnVertex v]) H) as (st' & A & B & C). exists st'. split; [exact A|]. rewrite B, C. unfold cb_vertices, cb_edges. rewrite !flat_map_app, <- app_assoc. cbn.
        rewrite app_nil_r. auto.
      - change (examined (Examine e :: t)) with (e :: examined t) in *. inversion H as [|? ? H1 H2]; subst. rewrite H1.
        destruct (IH (st ++ [OnEdge e]) H2) as (st' & A & B & C). exists st'. split; [exact A|]. rewrite B, C. unfold cb_vertices, cb_edges. rewrite !flat_map_app, <- !app_assoc. cbn. auto.
    Qed.
  End Extract.
End Users.
