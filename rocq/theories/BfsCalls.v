(** The order of the calls of breadth_first_search. *)
From Coq Require Import Sorted.
From Verif Require Import Base BaseProofs Search SearchSpec SearchProofs SearchProofs2 BFSProofs BfsSpec.

Section B.
  Context {E : Type}.
  Variables (out_edges : nat -> list E) (target : E -> nat) (if_push : E -> bool) (sources : list nat).
  Notation next := (next out_edges target if_push).
  Notation legal := (legal target sources).
  Implicit Types t : list (event E).

  Definition hue t (v : nat) : color := if mem v (finished t) then BLACK else if mem v (discovered t) then GRAY else WHITE.
  Lemma fin_app t1 t2 : finished (t1 ++ t2) = finished t1 ++ finished t2. Proof. apply flat_map_app. Qed.
  Lemma tree_app t1 t2 : tree_edges (t1 ++ t2) = tree_edges t1 ++ tree_edges t2. Proof. apply flat_map_app. Qed.
  Lemma hue_ext t t' : finished t = finished t' -> discovered t = discovered t' -> forall v, hue t v = hue t' v.
  Proof. intros E1 E2 v. unfold hue. rewrite E1, E2. reflexivity. Qed.
  Lemma hue_white t v : hue t v = WHITE <-> ~ In v (finished t) /\ ~ In v (discovered t).
  Proof. unfold hue. destruct (mem_reflect v (finished t)), (mem_reflect v (discovered t)); split; try discriminate; tauto. Qed.
  Lemma hue_gray t v : hue t v = GRAY <-> In v (discovered t) /\ ~ In v (finished t).
  Proof. unfold hue. destruct (mem_reflect v (finished t)), (mem_reflect v (discovered t)); split; try discriminate; tauto. Qed.
  Lemma hue_black t v : hue t v = BLACK <-> In v (finished t).
  Proof. unfold hue. destruct (mem_reflect v (finished t)), (mem_reflect v (discovered t)); split; try discriminate; tauto. Qed.

  Definition legals (t t' : list (event E)) : Prop := forall t1 x t2, t' = t1 ++ x :: t2 -> legal (t ++ t1) x.
  Lemma legals_nil t : legals t [].
  Proof. intros t1 x t2 Q. destruct t1; discriminate. Qed.
  Lemma legals_cons t x t' : legal t x -> legals (t ++ [x]) t' -> legals t (x :: t').
  Proof.
    intros L LS t1 y t2 Q. destruct t1 as [|z t1]; cbn in Q; injection Q as -> Q; [rewrite app_nil_r; exact L|].
    specialize (LS t1 y t2 Q). rewrite <- app_assoc in LS. exact LS.
  Qed.
  Lemma legals_app t1 : forall t t2, legals t t1 -> legals (t ++ t1) t2 -> legals t (t1 ++ t2).
  Proof.
    induction t1 as [|x t1 IH]; intros t t2 L1 L2; [rewrite app_nil_r in L2; exact L2|]. cbn [app]. apply legals_cons.
    - specialize (L1 [] x t1 eq_refl). rewrite app_nil_r in L1. exact L1.
    - apply IH.
      + intros u y v Q. specialize (L1 (x :: u) y v). rewrite <- app_assoc. apply L1. cbn. congruence.
      + rewrite <- app_assoc. exact L2.
  Qed.

  Variable R : nat -> Prop.
  Lemma bedges_legal l : forall q c te q1 c1 t0, bedges target if_push l q c = (te, q1, c1) -> (forall e, In e l -> if_push e = true -> R (target e)) ->
    (forall v, R v -> color_of c v = hue t0 v) ->
    on_edges target if_push l te /\ legals t0 te /\ (forall v, R v -> color_of c1 v = hue (t0 ++ te) v) /\ finished te = [] /\ q1 = q ++ map target (tree_edges te).
  Proof.
    induction l as [|e l IH]; intros q c te q1 c1 t0 B RL HC; cbn [bedges] in B.
    - injection B as <- <- <-. rewrite !app_nil_r. split; [constructor|]. split; [apply legals_nil|]. auto.
    - assert (RL' : forall e, In e l -> if_push e = true -> R (target e)) by (intros; apply RL; [right|]; assumption).
      destruct (if_push e) eqn:P.
      + assert (Re : R (target e)) by (apply RL; [left; reflexivity|exact P]). rewrite (HC _ Re) in B.
        destruct (hue t0 (target e)) eqn:HU.
        * destruct (bedges target if_push l (q ++ [target e]) (dset (snd (color_read c (target e))) (target e) GRAY)) as [[t q'] c'] eqn:B'. injection B as <- <- <-.
          apply hue_white in HU. set (t4 := t0 ++ [Ask e; Examine e; Tree e; Discover (target e)]).
          assert (D4 : discovered t4 = discovered t0 ++ [target e]) by (unfold t4; rewrite disc_app; reflexivity).
          assert (F4 : finished t4 = finished t0) by (unfold t4; rewrite fin_app; apply app_nil_r).
          assert (HC4 : forall v, R v -> color_of (dset (snd (color_read c (target e))) (target e) GRAY) v = hue t4 v).
          { intros v Rv. unfold color_of at 1. rewrite dget_dset. destruct (eqb_spec v (target e)) as [->|N].
            - symmetry. apply hue_gray. rewrite D4, F4, in_app_iff. cbn. tauto.
            - fold (color_of (snd (color_read c (target e))) v). rewrite color_read_snd, (HC v Rv). unfold hue. rewrite D4, F4.
              destruct (mem_reflect v (discovered t0)) as [M|M], (mem_reflect v (discovered t0 ++ [target e])) as [M'|M']; try reflexivity; exfalso.
              + apply M', in_app_iff. auto.
              + apply in_app_iff in M'. destruct M' as [M'|[M'|[]]]; [auto|congruence]. }
          destruct (IH _ _ _ _ _ _ B' RL' HC4) as (H1 & H2 & H3 & H4 & H5).
          change ([Ask e; Examine e; Tree e; Discover (target e)] ++ t) with (Ask e :: Examine e :: Tree e :: Discover (target e) :: t).
          split; [apply on_tree; assumption|]. split.
          { apply legals_cons; [exact I|]. apply legals_cons; [exact I|]. apply legals_cons.
            - cbn. rewrite !disc_app, !in_app_iff. cbn. tauto.
            - apply legals_cons; [cbn; rewrite !disc_app, !in_app_iff; cbn; tauto|]. rewrite <- !app_assoc. exact H2. }
          split; [intros v Rv; rewrite (H3 v Rv); unfold t4; rewrite <- app_assoc; reflexivity|]. split; [exact H4|]. rewrite H5, <- app_assoc. reflexivity.
        * destruct (bedges target if_push l q (snd (color_read c (target e)))) as [[t q'] c'] eqn:B'. injection B as <- <- <-.
          set (t4 := t0 ++ [Ask e; Examine e; NonTree e; GrayTarget e]).
          assert (HC4 : forall v, R v -> color_of (snd (color_read c (target e))) v = hue t4 v).
          { intros v Rv. rewrite color_read_snd, (HC v Rv). apply hue_ext; unfold t4; rewrite ?fin_app, ?disc_app; symmetry; apply app_nil_r. }
          destruct (IH _ _ _ _ _ _ B' RL' HC4) as (H1 & H2 & H3 & H4 & H5).
          change ([Ask e; Examine e; NonTree e; GrayTarget e] ++ t) with (Ask e :: Examine e :: NonTree e :: GrayTarget e :: t).
          split; [apply on_gray; assumption|]. split.
          { apply legals_cons; [exact I|]. apply legals_cons; [exact I|]. apply legals_cons; [exact I|]. apply legals_cons; [|rewrite <- !app_assoc; exact H2].
            apply hue_gray in HU. cbn. rewrite !disc_app, !fin_app, !in_app_iff. cbn. tauto. }
          split; [intros v Rv; rewrite (H3 v Rv); unfold t4; rewrite <- app_assoc; reflexivity|]. split; [exact H4|]. rewrite H5. reflexivity.
        * destruct (bedges target if_push l q (snd (color_read c (target e)))) as [[t q'] c'] eqn:B'. injection B as <- <- <-.
          set (t4 := t0 ++ [Ask e; Examine e; NonTree e; BlackTarget e]).
          assert (HC4 : forall v, R v -> color_of (snd (color_read c (target e))) v = hue t4 v).
          { intros v Rv. rewrite color_read_snd, (HC v Rv). apply hue_ext; unfold t4; rewrite ?fin_app, ?disc_app; symmetry; apply app_nil_r. }
          destruct (IH _ _ _ _ _ _ B' RL' HC4) as (H1 & H2 & H3 & H4 & H5).
          change ([Ask e; Examine e; NonTree e; BlackTarget e] ++ t) with (Ask e :: Examine e :: NonTree e :: BlackTarget e :: t).
          split; [apply on_black; assumption|]. split.
          { apply legals_cons; [exact I|]. apply legals_cons; [exact I|]. apply legals_cons; [exact I|]. apply legals_cons; [|rewrite <- !app_assoc; exact H2].
            apply hue_black in HU. cbn. rewrite !fin_app, !in_app_iff. cbn. tauto. }
          split; [intros v Rv; rewrite (H3 v Rv); unfold t4; rewrite <- app_assoc; reflexivity|]. split; [exact H4|]. rewrite H5. reflexivity.
      + destruct (bedges target if_push l q c) as [[t q'] c'] eqn:B'. injection B as <- <- <-.
        assert (HC4 : forall v, R v -> color_of c v = hue (t0 ++ [Ask e]) v).
        { intros v Rv. rewrite (HC v Rv). apply hue_ext; rewrite ?fin_app, ?disc_app; symmetry; apply app_nil_r. }
        destruct (IH _ _ _ _ _ _ B' RL' HC4) as (H1 & H2 & H3 & H4 & H5).
        split; [apply on_rejected; assumption|]. split; [apply legals_cons; [exact I|exact H2]|].
        split; [intros v Rv; rewrite (H3 v Rv), <- app_assoc; reflexivity|]. auto.
  Qed.

  Lemma brun_legal q c t c' : brun out_edges target if_push q c t c' -> (forall u v, R u -> next u v -> R v) -> forall t0, (forall u, In u q -> R u) ->
    (forall v, R v -> color_of c v = hue t0 v) -> rev sources ++ map target (tree_edges t0) = finished t0 ++ q ->
    on_vertices out_edges target if_push (finished t) t /\ legals t0 t.
  Proof.
    intros B RN. induction B as [c|u q c te q1 c1 t c' B H IH]; intros t0 RQ HC HQ; [split; [constructor|apply legals_nil]|].
    set (u1 := t0 ++ [ExamineVertex u]).
    assert (HC1 : forall v, R v -> color_of c v = hue u1 v).
    { intros v Rv. rewrite (HC v Rv). apply hue_ext; unfold u1; rewrite ?fin_app, ?disc_app; symmetry; apply app_nil_r. }
    assert (RL : forall e, In e (out_edges u) -> if_push e = true -> R (target e)).
    { intros e Ie P. apply (RN u); [apply RQ; left; reflexivity|]. exists e. auto. }
    destruct (bedges_legal _ _ _ _ _ _ u1 B RL HC1) as (H1 & H2 & H3 & H4 & H5).
    set (u2 := (u1 ++ te) ++ [Finish u]).
    assert (F2 : finished u2 = finished t0 ++ [u]) by (unfold u2, u1; rewrite !fin_app, H4; cbn; rewrite !app_nil_r; reflexivity).
    assert (D2 : discovered u2 = discovered (u1 ++ te)) by (unfold u2; rewrite disc_app; apply app_nil_r).
    assert (HC2 : forall v, R v -> color_of (dset c1 u BLACK) v = hue u2 v).
    { intros v Rv. unfold color_of at 1. rewrite dget_dset. destruct (eqb_spec v u) as [->|N]; [symmetry; apply hue_black; rewrite F2, in_app_iff; cbn; auto|].
      fold (color_of c1 v). rewrite (H3 v Rv). unfold hue. rewrite D2, F2. assert (FX : finished (u1 ++ te) = finished t0) by (unfold u1; rewrite !fin_app, H4; cbn; rewrite !app_nil_r; reflexivity). rewrite FX.
      destruct (mem_reflect v (finished t0)) as [M|M], (mem_reflect v (finished t0 ++ [u])) as [M'|M']; try reflexivity; exfalso.
      - apply M', in_app_iff. auto.
      - apply in_app_iff in M'. destruct M' as [M'|[M'|[]]]; [auto|congruence]. }
    destruct (IH u2) as [I1 I2].
    - rewrite H5. intros v I. apply in_app_iff in I. destruct I as [I|I]; [apply RQ; right; exact I|]. apply in_map_iff in I. destruct I as (e & <- & I).
      assert (X : In e (out_edges u) /\ if_push e = true).
      { clear - H1 I. induction H1 as [|e' l t P H IH|e' l t P H IH|e' l t P H IH|e' l t P H IH]; cbn in I.
        - destruct I.
        - destruct (IH I). cbn. auto.
        - destruct I as [<-|I]; [cbn; auto|]. destruct (IH I). cbn. auto.
        - destruct (IH I). cbn. auto.
        - destruct (IH I). cbn. auto. }
      apply RL; apply X.
    - exact HC2.
    - rewrite F2, <- app_assoc. unfold u2, u1. rewrite !tree_app. cbn [tree_edges flat_map app]. rewrite !app_nil_r, map_app, app_assoc, HQ, H5, <- app_assoc. reflexivity.
    - assert (FT : finished (ExamineVertex u :: te ++ Finish u :: t) = u :: finished t).
      { change (ExamineVertex u :: te ++ Finish u :: t) with ([ExamineVertex u] ++ te ++ [Finish u] ++ t). rewrite !fin_app, H4. reflexivity. }
      rewrite FT. split; [apply on_vertex; assumption|]. apply legals_cons.
      + cbn. exists q. exact HQ.
      + apply legals_app; [exact H2|]. apply legals_cons; [exact I|exact I2].
  Qed.
End B.
