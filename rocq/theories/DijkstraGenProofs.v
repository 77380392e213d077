(** Lemmas on Dijkstra's algorithm with any comparison and combination of the weights: as DijkstraProofs.v, with another order. *)
From Coq Require Import Sorted.
From Verif Require Import Search Heap HeapProofs Dijkstra DijkstraSpec DijkstraGenSpec DijkstraProofs Base BaseProofs.
#[local] Arguments dkeys : simpl never.

Section P.
  Context {E D : Type} {EE : EqDec E} {ED : EqDec D} {LD : Distance D}.
  Variables (V : list nat) (out_edges : nat -> list E) (source target : E -> nat) (pmap_eweight : E -> res D) (w : E -> D).
  Variables (lt : D -> D -> bool) (compare_arg : option (D -> D -> bool)) (comb : D -> D -> D).
  Variables (zero infty : D) (raises : devent E -> bool) (s : nat).
  Hypothesis H_rank : ranking lt.
  Hypothesis H_compare : compare_arg = None /\ d_lt = lt \/ compare_arg = Some lt.
  Hypothesis H_infty : lt zero infty = true.
  Hypothesis H_source : In s V.
  Hypothesis H_edges : ranked_graph lt comb zero infty out_edges target w V source pmap_eweight.
  Hypothesis H_raises : forall x, raises x = true -> exists v, x = DExamine v.

  Local Notation "a << b" := (lt a b = true) (at level 70).
  Local Notation "a <= b" := (lt b a = false) (at level 70).
  Local Notation KS := (ks compare_arg).
  Local Notation ITEM := (item nat D).
  Local Notation dv st := (key_of (d_dist st)).
  Local Notation HV st := (map snd (hp_data (d_heap st))).
  Local Notation COST := (cost_from comb w).

  Lemma le_refl a : a <= a. Proof. apply (rk_irrefl _ H_rank). Qed.
  Lemma le_trans a b c : a <= b -> b <= c -> a <= c. Proof. intros H1 H2. apply (rk_ties _ H_rank c b a H2 H1). Qed.
  Lemma lt_le a b : a << b -> a <= b. Proof. intros H. destruct (lt b a) eqn:Q; [|reflexivity]. pose proof (rk_trans _ H_rank _ _ _ H Q) as R. rewrite (rk_irrefl _ H_rank) in R. discriminate. Qed.
  Lemma lt_le_trans a b c : a << b -> b <= c -> a << c. Proof. intros H1 H2. destruct (lt a c) eqn:Q; [reflexivity|]. pose proof (rk_ties _ H_rank _ _ _ Q H2). congruence. Qed.
  Lemma le_lt_trans a b c : a <= b -> b << c -> a << c. Proof. intros H1 H2. destruct (lt a c) eqn:Q; [reflexivity|]. pose proof (rk_ties _ H_rank _ _ _ H1 Q). congruence. Qed.
  Lemma lt_false a b : a << b -> b <= a -> False. Proof. congruence. Qed.
  Lemma le_total a b : a <= b \/ b << a. Proof. destruct (lt b a); auto. Qed.

  Definition kile (a b : ITEM) : Prop := fst (fst a) <= fst (fst b).
  Lemma kile_refl a : kile a a. Proof. apply le_refl. Qed.
  Lemma kile_trans a b c : kile a b -> kile b c -> kile a c. Proof. apply le_trans. Qed.
  Lemma klt_le a b : item_lt KS a b = true -> kile a b.
  Proof.
    destruct a as [[ka ia] xa], b as [[kb ib] xb]. unfold kile, item_lt, ks. cbn [fst]. destruct H_compare as [[-> HL] | ->]; cbn.
    - rewrite HL. destruct (eqb_spec ka kb) as [->|]; [intros _; apply le_refl|]. apply lt_le.
    - unfold C_eq, C_lt. destruct (lt ka kb) eqn:Q1, (lt kb ka) eqn:Q2; cbn; try reflexivity; try discriminate. apply lt_le in Q1. congruence.
  Qed.
  Lemma knlt_le a b : item_lt KS a b = false -> kile b a.
  Proof.
    destruct a as [[ka ia] xa], b as [[kb ib] xb]. unfold kile, item_lt, ks. cbn [fst]. destruct H_compare as [[-> HL] | ->]; cbn.
    - rewrite HL. destruct (eqb_spec ka kb) as [->|]; [intros _; apply le_refl|]. auto.
    - unfold C_eq, C_lt. destruct (lt ka kb) eqn:Q1, (lt kb ka) eqn:Q2; cbn; try reflexivity; try discriminate. apply lt_le in Q1. congruence.
  Qed.
  Lemma compare_less : compare compare_arg = lt.
  Proof. destruct H_compare as [[-> HL] | ->]; [exact HL|reflexivity]. Qed.

  (** decrease_key, on a heap with one item for each element *)
  Lemma decrease_spec (key : nat -> D) (L : list ITEM) v : is_heap kile L -> NoDup (map snd L) -> In v (map snd L) ->
    let f := fun it : ITEM => if eqb v (snd it) then (key v, snd (fst it), v) else it in
    Permutation (decrease_loop KS key (length L) 0 L v) (map f L) /\ is_heap kile (decrease_loop KS key (length L) 0 L v).
  Proof.
    intros HD ND IV f.
    assert (G : forall n i data, length data = length L -> (n + i = length L)%nat ->
      (data = L /\ (forall j it, (j < i)%nat -> nth_error L j = Some it -> snd it <> v)) \/ (is_heap kile data /\ Permutation data (map f L)) ->
      Permutation (decrease_loop KS key n i data v) (map f L) /\ is_heap kile (decrease_loop KS key n i data v)).
    { induction n as [|n IH]; intros i data LL Ei INV; cbn [decrease_loop].
      - destruct INV as [[-> N]|[H P]]; [|auto]. exfalso. apply in_map_iff in IV. destruct IV as (it & Ev & I). apply In_nth_error in I. destruct I as [j Hj]. apply (N j it); [apply nth_lt in Hj; unfold item in *; lia|exact Hj|exact Ev].
      - destruct (lt_nth data i) as [[[k index] x] Hi]; [lia|]. rewrite Hi. destruct (eqb_spec v x) as [<-|Nx].
        + destruct (heapify_spec (item_lt KS) kile kile_refl kile_trans klt_le knlt_le (upd data i (key v, index, v))) as [P1 P2].
          apply IH; [rewrite (Permutation_length P1), length_upd; exact LL|lia|]. right. split; [exact P2|]. rewrite P1. destruct INV as [[-> N]|[H P]].
          * replace (upd L i (key v, index, v)) with (map f L); [reflexivity|]. clear -ND Hi. revert i Hi. induction L as [|it L IHD]; intros [|i] Hi; cbn in *; try discriminate.
            -- injection Hi as ->. inversion ND as [|? ? N1 N2]; subst. apply (f_equal2 cons); [unfold f; cbn; rewrite eqb_refl; reflexivity|]. transitivity (map (fun x => x) L); [|apply map_id].
               apply map_ext_in. intros a I. unfold f. destruct (eqb_spec v (snd a)) as [E0|]; [|reflexivity]. exfalso. apply N1. cbn. rewrite E0. apply in_map, I.
            -- inversion ND as [|? ? N1 N2]; subst. apply (f_equal2 cons); [|apply IHD; assumption]. unfold f. destruct (eqb_spec v (snd it)) as [E0|]; [|reflexivity]. exfalso. apply N1. rewrite <- E0.
               apply in_map_iff. exists (k, index, v). split; [reflexivity|]. apply (nth_error_In _ _ Hi).
          * replace (upd data i (key v, index, v)) with data; [exact P|]. symmetry. apply upd_same. rewrite Hi. f_equal. f_equal. f_equal.
            assert (I : In (k, index, v) (map f L)) by (apply (Permutation_in _ P), (nth_error_In _ _ Hi)). apply in_map_iff in I. destruct I as ([[k0 i0] v0] & E0 & _). unfold f in E0. cbn in E0.
            destruct (eqb_spec v v0); congruence.
        + apply IH; [exact LL|lia|]. destruct INV as [[-> N]|R]; [left|right; exact R]. split; [reflexivity|]. intros j it Lj Hj. destruct (Nat.eq_dec j i) as [->|]; [rewrite Hi in Hj; injection Hj as <-; cbn; congruence|apply (N j); [lia|exact Hj]]. }
    apply G; [reflexivity|lia|]. left. split; [reflexivity|]. intros j it LJ. lia.
  Qed.

  Record inv (S : list nat) (P : list E) (st : dstate E D) : Prop := {
    i_def : forall v, In v V -> exists d, dget (d_dist st) v = Some d;
    i_top : forall v, In v V -> zero <= dv st v /\ (dv st v = infty \/ dv st v << infty);
    i_src : dv st s = zero;
    i_walk : forall v, In v V -> dv st v << infty -> exists p, walk_of out_edges target s p v /\ COST zero p = dv st v;
    i_heap : is_heap kile (hp_data (d_heap st));
    i_key : forall it, In it (hp_data (d_heap st)) -> fst (fst it) = dv st (snd it);
    i_nodup : NoDup (HV st);
    i_in : forall v, In v (HV st) <-> In v V /\ ~ In v S /\ dv st v << infty;
    i_S : forall x, In x S -> In x V /\ dv st x << infty;
    i_Sn : NoDup S;
    i_le : forall x v, In x S -> In v V -> ~ In v S -> dv st x <= dv st v;
    i_P : forall e, In e P -> In (source e) S /\ In e (out_edges (source e)) /\ dv st (target e) <= comb (dv st (source e)) (w e);
    i_preds : forall v e, In e (preds_of (d_preds st) v) <-> In e P /\ target e = v /\ comb (dv st (source e)) (w e) = dv st v;
    i_pn : forall v, NoDup (preds_of (d_preds st) v);
    i_some : forall v, In v V -> dv st v << infty -> v <> s -> preds_of (d_preds st) v <> [];
    i_color : forall v, In v V -> ~ In v S -> color_of (d_color st) v = (if in_dec Nat.eq_dec v (HV st) then match S with [] => WHITE | _ => GRAY end else WHITE);
    i_first : S = [] -> HV st = [s];
    i_log : examined_vertices (d_log st) = S;
    i_sorted : StronglySorted (fun x y => dv st x <= dv st y) S;
    i_disc : forall v, In v (discovered_vertices (d_log st)) <-> v <> s /\ In v V /\ dv st v << infty;
    i_discn : NoDup (discovered_vertices (d_log st))
  }.
  Definition quiet (st st' : dstate E D) : Prop := d_dist st' = d_dist st /\ d_preds st' = d_preds st /\ d_color st' = d_color st /\ d_heap st' = d_heap st /\
    examined_vertices (d_log st') = examined_vertices (d_log st) /\ discovered_vertices (d_log st') = discovered_vertices (d_log st).
  Lemma inv_quiet S P st st' : quiet st st' -> inv S P st -> inv S P st'.
  Proof. destruct st, st'. unfold quiet. cbn. intros (-> & -> & -> & -> & E1 & E2) []. constructor; cbn in *; rewrite ?E1, ?E2; assumption. Qed.
  Lemma call_done x (st : dstate E D) : (forall v, x <> DExamine v) -> call raises x st = (mkD (d_dist st) (d_preds st) (d_color st) (d_heap st) (d_log st ++ [x]), Done).
  Proof. intros N. unfold call. destruct (raises x) eqn:R; [|reflexivity]. destruct (H_raises x R) as [v ->]. destruct (N v eq_refl). Qed.
  Lemma key_of_dset (d : dict nat D) v k x : key_of (dset d v k) x = if eqb x v then k else key_of d x.
  Proof. unfold key_of. rewrite dget_dset. destruct (eqb_spec x v); reflexivity. Qed.
  Lemma cost_app a (p q : list E) : COST a (p ++ q) = COST (COST a p) q.
  Proof. apply fold_left_app. Qed.
  Lemma top_le S P st v : inv S P st -> In v V -> dv st v <= infty.
  Proof. intros I Vv. destruct (proj2 (i_top _ _ _ I v Vv)) as [->|H]; [apply le_refl|apply lt_le, H]. Qed.

  Lemma edge_step_inv S P st u e : inv S P st -> In u S -> (forall x, In x S -> dv st x <= dv st u) -> In e (out_edges u) ->
    exists st', edge_step target pmap_eweight compare_arg comb raises (dv st u) e st = (st', Done) /\ inv S (P ++ [e]) st' /\ (forall x, In x S -> dv st' x = dv st x).
  Proof.
    intros I Iu MAX Ie. destruct (i_S _ _ _ I u Iu) as [Vu Fu]. destruct (H_edges u e Vu Ie) as (Es & Vt & Ew & [WX WM WT]). set (v := target e) in *.
    unfold edge_step. rewrite call_done by discriminate. cbn [thn]. fold v. cbn [d_dist]. destruct (i_def _ _ _ I v Vt) as [dvv Ev]. rewrite Ev, Ew.
    assert (Dv : dv st v = dvv) by (unfold key_of; rewrite Ev; reflexivity). rewrite compare_less. set (nd := comb (dv st u) (w e)).
    pose proof (i_top _ _ _ I u Vu) as Tu. pose proof (i_top _ _ _ I v Vt) as Tv. rewrite Dv in Tv.
    assert (NDu : dv st u <= nd) by (apply WX; [apply Tu|exact Fu]).
    destruct (lt nd dvv) eqn:L.
    - (* relaxed *)
      assert (NvS : ~ In v S). { intros J. specialize (MAX v J). rewrite Dv in MAX. apply (lt_false _ _ L), (le_trans _ _ _ MAX NDu). }
      assert (Nvs : v <> s). { intros ->. rewrite (i_src _ _ _ I) in Dv. apply (lt_false _ _ L). rewrite <- Dv. apply (le_trans _ _ _ (proj1 Tu) NDu). }
      assert (Fn : nd << infty) by (apply (lt_le_trans _ _ _ L); rewrite <- Dv; apply (top_le S P st v I Vt)).
      pose proof (i_color _ _ _ I v Vt NvS) as CV.
      set (dist := dset (d_dist st) v nd).
      assert (KD : forall x, key_of dist x = if eqb x v then nd else dv st x) by (intros x; apply key_of_dset).
      assert (KDv : key_of dist v = nd) by (rewrite KD, eqb_refl; reflexivity).
      assert (KDo : forall x, x <> v -> key_of dist x = dv st x) by (intros x N; rewrite KD; destruct (eqb_spec x v); [contradiction|reflexivity]).
      assert (KDS : forall x, In x S -> key_of dist x = dv st x) by (intros x J; apply KDo; intros ->; contradiction).
      assert (SRC : forall e', In e' P -> key_of dist (source e') = dv st (source e')) by (intros e' J; apply KDS, (i_P _ _ _ I e' J)).
      (* the invariant, but for the heap and the colors *)
      assert (REST : forall colors h log,
        is_heap kile (hp_data h) -> (forall it, In it (hp_data h) -> fst (fst it) = key_of dist (snd it)) -> NoDup (map snd (hp_data h)) ->
        (forall x, In x (map snd (hp_data h)) <-> x = v \/ In x (HV st)) ->
        (forall x, color_of colors x = if eqb x v then GRAY else color_of (d_color st) x) ->
        examined_vertices log = S -> (forall x, In x (discovered_vertices log) <-> x = v \/ In x (discovered_vertices (d_log st))) -> NoDup (discovered_vertices log) ->
        inv S (P ++ [e]) (mkD dist (dset (d_preds st) v [e]) colors h log)).
      { intros cl h log Q1 Q2 Q3 Q4 Q5 Q6 Q7 Q8. constructor; cbn [d_dist d_preds d_color d_heap d_log]; try assumption.
        - intros x Vx. unfold dist. rewrite dget_dset. destruct (eqb_spec x v); [eauto|apply (i_def _ _ _ I x Vx)].
        - intros x Vx. rewrite KD. destruct (eqb_spec x v); [split; [apply (le_trans _ _ _ (proj1 Tu) NDu)|right; exact Fn]|apply (i_top _ _ _ I x Vx)].
        - rewrite KDo by congruence. apply (i_src _ _ _ I).
        - intros x Vx. rewrite KD. destruct (eqb_spec x v) as [->|Nx]; [|apply (i_walk _ _ _ I x Vx)]. intros Lx. destruct (i_walk _ _ _ I u Vu Fu) as (p & Wp & Ep).
          exists (p ++ [e]). split; [apply (walk_app out_edges target s p u [e] v Wp); constructor; [exact Ie|constructor]|]. rewrite cost_app, Ep. reflexivity.
        - intros x. rewrite Q4, (i_in _ _ _ I), KD. destruct (eqb_spec x v) as [->|Nx]; [split; [intros _; split; [exact Vt|]; split; [exact NvS|exact Fn]|auto]|]. split; [intros [?|?]; [contradiction|assumption]|auto].
        - intros x J. destruct (i_S _ _ _ I x J) as [? ?]. rewrite (KDS x J). auto.
        - apply (i_Sn _ _ _ I).
        - intros x y J Vy Ny. rewrite (KDS x J), KD. destruct (eqb_spec y v) as [->|]; [apply (le_trans _ _ _ (MAX x J) NDu)|apply (i_le _ _ _ I); assumption].
        - intros e' J. apply in_app_iff in J. destruct J as [J|[<-|[]]].
          + destruct (i_P _ _ _ I e' J) as (J1 & J2 & J3). split; [exact J1|]. split; [exact J2|]. rewrite (SRC e' J), KD. destruct (eqb_spec (target e') v) as [E0|]; [|exact J3]. rewrite E0, Dv in J3. apply (le_trans _ _ _ (lt_le _ _ L) J3).
          + rewrite Es. split; [exact Iu|]. split; [exact Ie|]. rewrite (KDS u Iu). fold v. rewrite KDv. apply le_refl.
        - intros x e'. rewrite preds_of_dset, in_app_iff. destruct (eqb_spec x v) as [->|Nx].
          + rewrite KDv. cbn. split.
            * intros [<-|[]]. rewrite Es. split; [auto|]. split; [reflexivity|]. rewrite (KDS u Iu). reflexivity.
            * intros ([J|[<-|[]]] & J2 & J3); [|auto]. exfalso. destruct (i_P _ _ _ I e' J) as (_ & _ & J4). rewrite (SRC e' J) in J3. rewrite J2, Dv, J3 in J4. congruence.
          + rewrite (KDo x Nx), (i_preds _ _ _ I). cbn. split.
            * intros (J & J2 & J3). rewrite (SRC e' J). auto.
            * intros ([J|[<-|[]]] & J2 & J3); [rewrite (SRC e' J) in J3; auto|]. destruct Nx. symmetry. exact J2.
        - intros x. rewrite preds_of_dset. destruct (eqb_spec x v); [repeat constructor; intros []|apply (i_pn _ _ _ I)].
        - intros x Vx. rewrite KD, preds_of_dset. destruct (eqb_spec x v); [discriminate|apply (i_some _ _ _ I x Vx)].
        - intros x Vx Nx. rewrite Q5. destruct (in_dec Nat.eq_dec x (map snd (hp_data h))) as [J|J].
          + destruct (eqb_spec x v) as [->|Nxv]; [destruct S; [destruct Iu|reflexivity]|]. apply Q4 in J. destruct J as [?|J]; [contradiction|]. rewrite (i_color _ _ _ I x Vx Nx). destruct (in_dec Nat.eq_dec x (HV st)); [reflexivity|contradiction].
          + destruct (eqb_spec x v) as [->|Nxv]; [destruct J; apply Q4; auto|]. rewrite (i_color _ _ _ I x Vx Nx). destruct (in_dec Nat.eq_dec x (HV st)) as [K|K]; [destruct J; apply Q4; auto|reflexivity].
        - intros ->. destruct Iu.
        - assert (SS := i_sorted _ _ _ I). clear -SS KDS. induction SS as [|a l S1 IH F]; constructor; [apply IH; intros x J; apply KDS; right; exact J|]. rewrite Forall_forall in *. intros y J. rewrite !KDS by (cbn; auto). apply F, J.
        - intros x. rewrite Q7, (i_disc _ _ _ I), KD. destruct (eqb_spec x v) as [->|Nx]; [split; [intros _; split; [exact Nvs|]; split; [exact Vt|exact Fn]|auto]|]. split; [intros [?|?]; [contradiction|assumption]|auto]. }
      pose proof (color_read_fst (d_color st) v) as CR. pose proof (color_read_of (d_color st) v) as CO. cbn [d_color d_preds d_heap d_log]. destruct (color_read (d_color st) v) as [c cl]. cbn [fst snd] in CR, CO. subst c. rewrite CV.
      destruct (in_dec Nat.eq_dec v (HV st)) as [Hv|Hv].
      + destruct S as [|s0 S0] eqn:ES; [destruct Iu|]. rewrite <- ES in *. cbn [thn]. rewrite call_done by discriminate.
        destruct (decrease_spec (key_of dist) (hp_data (d_heap st)) v (i_heap _ _ _ I) (i_nodup _ _ _ I) Hv) as [P1 P2]. set (f := fun it : ITEM => _) in P1.
        assert (FS : forall it, snd (f it) = snd it) by (intros it; unfold f; destruct (eqb_spec v (snd it)); cbn; congruence).
        assert (MS : Permutation (map snd (decrease_loop KS (key_of dist) (length (hp_data (d_heap st))) 0 (hp_data (d_heap st)) v)) (HV st)).
        { rewrite P1, map_map. erewrite map_ext by exact FS. reflexivity. }
        eexists. split; [reflexivity|]. split; [|intros x J; cbn [d_dist]; apply KDS, J].
        cbn [d_dist d_preds d_color d_heap d_log]. apply REST; cbn [heap_decrease_key hp_data hp_index].
        * exact P2.
        * intros it J. apply (Permutation_in _ P1) in J. apply in_map_iff in J. destruct J as (it0 & <- & J). rewrite FS. unfold f. destruct (eqb_spec v (snd it0)) as [E0|N0]; cbn; [rewrite E0; reflexivity|]. rewrite KDo by congruence. apply (i_key _ _ _ I), J.
        * apply (Permutation_NoDup (Permutation_sym MS)), (i_nodup _ _ _ I).
        * intros x. split; [intros J; right; apply (Permutation_in _ MS), J|]. intros [->|J]; apply (Permutation_in _ (Permutation_sym MS)); assumption.
        * intros x. rewrite CO. destruct (eqb_spec x v) as [->|]; [rewrite CV; reflexivity|reflexivity].
        * rewrite !examined_app, !app_nil_r. apply (i_log _ _ _ I).
        * intros x. rewrite !discovered_app, !app_nil_r. rewrite (i_disc _ _ _ I). split; [auto|]. intros [->|J]; [|exact J]. split; [exact Nvs|]. split; [exact Vt|]. apply (i_in _ _ _ I), Hv.
        * rewrite !discovered_app, !app_nil_r. apply (i_discn _ _ _ I).
      + rewrite call_done by discriminate. cbn [thn]. rewrite call_done by discriminate. cbn [d_dist d_preds d_color d_heap d_log].
        destruct (heappush_spec (item_lt KS) kile kile_trans klt_le knlt_le (hp_data (d_heap st)) (key_of dist v, hp_index (d_heap st), v) (i_heap _ _ _ I)) as [P1 P2].
        eexists. split; [reflexivity|]. split; [|intros x J; cbn [d_dist]; apply KDS, J].
        assert (Nd : ~ In v (discovered_vertices (d_log st))). { intros J. apply (i_disc _ _ _ I) in J. apply Hv, (i_in _ _ _ I). tauto. }
        apply REST; cbn [heap_push hp_data hp_index].
        * exact P2.
        * intros it J. apply (Permutation_in _ P1) in J. destruct J as [<-|J]; [reflexivity|]. rewrite KDo; [apply (i_key _ _ _ I), J|]. intros E0. apply Hv. rewrite <- E0. apply in_map, J.
        * apply (Permutation_NoDup (Permutation_sym (Permutation_map snd P1))). cbn. constructor; [exact Hv|apply (i_nodup _ _ _ I)].
        * intros x. split; [intros J; apply (Permutation_in _ (Permutation_map snd P1)) in J; cbn in J; destruct J as [<-|J]; auto|]. intros J. apply (Permutation_in _ (Permutation_sym (Permutation_map snd P1))). cbn. destruct J as [->|J]; auto.
        * intros x. unfold color_of at 1. rewrite dget_dset. destruct (eqb_spec x v); [reflexivity|apply CO].
        * rewrite !examined_app, !app_nil_r. apply (i_log _ _ _ I).
        * intros x. rewrite !discovered_app, !in_app_iff. cbn. split; [intros [[[J|[]]|[->|[]]]|[]]; auto|]. intros [->|J]; auto.
        * rewrite !discovered_app, !app_nil_r. cbn. apply NoDup_app_intro; [apply (i_discn _ _ _ I)|repeat constructor; intros []|]. intros x J [<-|[]]. contradiction.
    - assert (COMMON : forall preds log, (forall x e', In e' (preds_of preds x) <-> In e' (P ++ [e]) /\ target e' = x /\ comb (dv st (source e')) (w e') = dv st x) ->
        (forall x, NoDup (preds_of preds x)) -> examined_vertices log = examined_vertices (d_log st) -> discovered_vertices log = discovered_vertices (d_log st) ->
        inv S (P ++ [e]) (mkD (d_dist st) preds (d_color st) (d_heap st) log)).
      { intros preds log Q1 Q2 Q3 Q4. destruct I. constructor; cbn [d_dist d_preds d_color d_heap d_log]; rewrite ?Q3, ?Q4; try assumption.
        - intros e' J. apply in_app_iff in J. destruct J as [J|[<-|[]]]; [auto|]. rewrite Es. split; [exact Iu|]. split; [exact Ie|]. fold v nd. rewrite Dv. exact L.
        - intros x Vx Fx Nx. specialize (i_some0 x Vx Fx Nx). destruct (preds_of (d_preds st) x) as [|e0 l0] eqn:E0; [contradiction|]. assert (J : In e0 (preds_of preds x)).
          { apply Q1. assert (J : In e0 (preds_of (d_preds st) x)) by (rewrite E0; left; reflexivity). apply i_preds0 in J. rewrite in_app_iff. tauto. } intros E1. rewrite E1 in J. destruct J. }
      destruct (eqb_spec nd dvv) as [EQ|NE]; rewrite call_done by discriminate; eexists; (split; [reflexivity|]); (split; [|reflexivity]); cbn [d_dist d_preds d_color d_heap d_log].
      + apply COMMON.
        * intros x e'. rewrite preds_of_dset. destruct (eqb_spec x v) as [->|Nx].
          -- rewrite In_sadd, (i_preds _ _ _ I), in_app_iff. cbn. split.
             ++ intros [->|J]; [|tauto]. rewrite Es. fold nd. split; [auto|]. split; [reflexivity|congruence].
             ++ intros ([J|[<-|[]]] & J2 & J3); [right; auto|left; reflexivity].
          -- rewrite (i_preds _ _ _ I), in_app_iff. cbn. split; [tauto|]. intros ([J|[<-|[]]] & J2 & J3); [auto|]. destruct Nx. symmetry. exact J2.
        * intros x. rewrite preds_of_dset. destruct (eqb_spec x v); [apply NoDup_sadd|]; apply (i_pn _ _ _ I).
        * rewrite !examined_app, !app_nil_r. reflexivity.
        * rewrite !discovered_app, !app_nil_r. reflexivity.
      + apply COMMON.
        * intros x e'. rewrite (i_preds _ _ _ I), in_app_iff. cbn. split; [tauto|]. intros ([J|[<-|[]]] & J2 & J3); [auto|]. exfalso. subst x. fold v in J3. rewrite Es in J3. fold nd in J3. congruence.
        * apply (i_pn _ _ _ I).
        * rewrite !examined_app, !app_nil_r. reflexivity.
        * rewrite !discovered_app, !app_nil_r. reflexivity.
  Qed.

  Lemma edges_inv u l : forall S P st, inv S P st -> In u S -> (forall x, In x S -> dv st x <= dv st u) -> (forall e, In e l -> In e (out_edges u)) ->
    exists st', each (edge_step target pmap_eweight compare_arg comb raises (dv st u)) l st = (st', Done) /\ inv S (P ++ l) st' /\ (forall x, In x S -> dv st' x = dv st x).
  Proof.
    induction l as [|e l IH]; intros S P st I Iu MAX Il; cbn [each]; [exists st; rewrite app_nil_r; auto|].
    destruct (edge_step_inv S P st u e I Iu MAX (Il e (or_introl eq_refl))) as (st1 & H1 & H2 & H3). rewrite H1. cbn [thn].
    destruct (IH S (P ++ [e]) st1 H2 Iu) as (st2 & H4 & H5 & H6).
    - intros x J. rewrite !H3 by assumption. apply MAX, J.
    - intros e' J. apply Il. right. exact J.
    - rewrite (H3 u Iu) in H4. exists st2. split; [exact H4|]. rewrite <- app_assoc in H5. split; [exact H5|]. intros x J. rewrite H6, H3 by assumption. reflexivity.
  Qed.

  (** all the edges out of S are in P *)
  Definition full (S : list nat) (P : list E) : Prop := forall x e, In x S -> In e (out_edges x) -> In e P.

  (** the vertex popped: it is not further than any vertex outside S, and its distance is the right one *)
  Lemma pop_inv S P st : inv S P st -> full S P -> hp_data (d_heap st) <> [] ->
    exists u h, heap_pop KS (d_heap st) = (h, Ok u) /\ In u V /\ ~ In u S /\ dv st u << infty /\
      inv (S ++ [u]) P (mkD (d_dist st) (d_preds st) (d_color st) h (d_log st ++ [DExamine u])) /\
      (forall x, In x (S ++ [u]) -> dv st x <= dv st u) /\ (forall p, walk_of out_edges target s p u -> dv st u <= COST zero p).
  Proof.
    intros I FULL NE. destruct (heappop_spec (item_lt KS) kile kile_refl kile_trans klt_le knlt_le (hp_data (d_heap st)) (i_heap _ _ _ I) NE) as (m & d' & Ep & Pm & Hd & MIN).
    destruct m as [[km im] u]. exists u, (mkHeap d' (hp_index (d_heap st))). split; [unfold heap_pop; rewrite Ep; reflexivity|].
    assert (Iu : In u (HV st)) by (apply in_map_iff; exists (km, im, u); split; [reflexivity|]; apply (Permutation_in _ (Permutation_sym Pm)); left; reflexivity).
    assert (Km : km = dv st u) by (apply (i_key _ _ _ I (km, im, u)), (Permutation_in _ (Permutation_sym Pm)); left; reflexivity).
    destruct (proj1 (i_in _ _ _ I u) Iu) as (Vu & Nu & Fu). pose proof (Permutation_map snd Pm) as PV. cbn in PV.
    assert (NDu : ~ In u (map snd d') /\ NoDup (map snd d')). { pose proof (Permutation_NoDup PV (i_nodup _ _ _ I)) as ND. inversion ND; auto. }
    assert (LEAST : forall v, In v V -> ~ In v S -> dv st u <= dv st v).
    { intros v Vv Nv. destruct (proj2 (i_top _ _ _ I v Vv)) as [Fv|Fv]; [rewrite Fv; apply lt_le, Fu|]. assert (J : In v (HV st)) by (apply (i_in _ _ _ I); auto). apply in_map_iff in J. destruct J as (it & <- & J).
      pose proof (MIN it J) as M. unfold kile in M. cbn in M. rewrite (i_key _ _ _ I it J), Km in M. exact M. }
    split; [exact Vu|]. split; [exact Nu|]. split; [exact Fu|].
    assert (MAX : forall x, In x (S ++ [u]) -> dv st x <= dv st u). { intros x J. apply in_app_iff in J. destruct J as [J|[<-|[]]]; [apply (i_le _ _ _ I); assumption|apply le_refl]. }
    split; [|split; [exact MAX|]].
    - destruct I. constructor; cbn [d_dist d_preds d_color d_heap d_log hp_data]; try assumption.
      + intros it J. apply i_key0. apply (Permutation_in _ (Permutation_sym Pm)). right. exact J.
      + apply NDu.
      + intros v. split.
        * intros J. assert (J' : In v (HV st)) by (apply (Permutation_in _ (Permutation_sym PV)); right; exact J). apply i_in0 in J'. destruct J' as (J1 & J2 & J3). split; [exact J1|]. split; [|exact J3]. rewrite in_app_iff. cbn. intros [K|[->|[]]]; [contradiction|]. apply (proj1 NDu), J.
        * intros (J1 & J2 & J3). assert (J' : In v (HV st)) by (apply i_in0; split; [exact J1|]; split; [|exact J3]; intros K; apply J2, in_app_iff; auto). apply (Permutation_in _ PV) in J'. destruct J' as [<-|J']; [|exact J']. destruct J2. apply in_app_iff. cbn. auto.
      + intros x J. apply in_app_iff in J. destruct J as [J|[<-|[]]]; auto.
      + apply NoDup_app_intro; [assumption|repeat constructor; intros []|]. intros x J [<-|[]]. contradiction.
      + intros x v J Vv Nv. assert (Nv' : ~ In v S) by (intros K; apply Nv, in_app_iff; auto). apply in_app_iff in J. destruct J as [J|[<-|[]]]; [apply i_le0; assumption|apply LEAST; assumption].
      + intros e J. destruct (i_P0 e J) as (J1 & J2 & J3). split; [apply in_app_iff; auto|auto].
      + intros v Vv Nv. assert (Nv' : ~ In v S) by (intros K; apply Nv, in_app_iff; auto). assert (Nvu : v <> u) by (intros ->; apply Nv, in_app_iff; cbn; auto). rewrite (i_color0 v Vv Nv').
        destruct (in_dec Nat.eq_dec v (HV st)) as [J|J], (in_dec Nat.eq_dec v (map snd d')) as [K|K].
        * destruct S as [|s0 S0]; [|reflexivity]. exfalso. rewrite (i_first0 eq_refl) in PV, J, Iu. apply Permutation_length in PV. cbn in PV. destruct d'; [destruct K|discriminate].
        * exfalso. apply (Permutation_in _ PV) in J. destruct J as [J|J]; [congruence|contradiction].
        * exfalso. apply J, (Permutation_in _ (Permutation_sym PV)). right. exact K.
        * reflexivity.
      + intros K. destruct S; discriminate.
      + rewrite examined_app, i_log0. reflexivity.
      + clear -i_sorted0 MAX. induction i_sorted0 as [|a l S1 IH F]; cbn; [repeat constructor|]. constructor; [apply IH; intros x J; apply MAX; right; exact J|]. apply Forall_app. split; [exact F|]. constructor; [apply MAX; left; reflexivity|constructor].
      + rewrite discovered_app, app_nil_r. assumption.
      + rewrite discovered_app, app_nil_r. assumption.
    - (* no walk is lighter *)
      assert (G : forall a p v, walk_of out_edges target a p v -> In a V -> forall k, zero <= k -> (dv st a <= k \/ dv st u <= k) -> (dv st v <= COST k p \/ dv st u <= COST k p)).
      { induction 1 as [a|a e p v Ie _ IH]; intros Va k Kp Hk; cbn [cost_from fold_left]; [exact Hk|]. destruct (H_edges a e Va Ie) as (Es & Vt & _ & [WX WM WT]).
        change (fold_left _ p (comb k (w e))) with (COST (comb k (w e)) p). destruct (le_total infty k) as [Fk|Fk].
        - apply (IH Vt); [apply (le_trans _ infty); [apply lt_le, H_infty|apply WT, Fk]|]. right. apply (le_trans _ infty); [apply lt_le, Fu|apply WT, Fk].
        - apply (IH Vt); [apply (le_trans _ k); [exact Kp|apply WX; assumption]|]. destruct (in_dec Nat.eq_dec a S) as [Ja|Ja].
          + destruct Hk as [Hk|Hk]; [|right; apply (le_trans _ k); [exact Hk|apply WX; assumption]]. left. destruct (i_P _ _ _ I e (FULL a e Ja Ie)) as (_ & _ & J3). rewrite Es in J3.
            apply (le_trans _ _ _ J3). apply WM; [apply (i_top _ _ _ I a Va)|exact Hk|exact Fk].
          + right. apply (le_trans _ k); [|apply WX; assumption]. destruct Hk as [Hk|Hk]; [|exact Hk]. apply (le_trans _ (dv st a)); [apply LEAST; assumption|exact Hk]. }
      intros p Wp. destruct (G s p u Wp H_source zero (le_refl _)) as [H|H]; [left; rewrite (i_src _ _ _ I); apply le_refl|exact H|exact H].
  Qed.

  Lemma iteration_inv S P st : inv S P st -> full S P -> hp_data (d_heap st) <> [] ->
    exists u, In u V /\ ~ In u S /\ dv st u << infty /\ (forall p, walk_of out_edges target s p u -> dv st u <= COST zero p) /\
      exists st', inv (S ++ [u]) (if raises (DExamine u) then P else P ++ out_edges u) st' /\
        iteration out_edges target pmap_eweight compare_arg comb raises st = (st', if raises (DExamine u) then Stopped else Done) /\
        (raises (DExamine u) = true -> d_dist st' = d_dist st) /\
        (raises (DExamine u) = false -> full (S ++ [u]) (P ++ out_edges u)).
  Proof.
    intros I FULL NE. destruct (pop_inv S P st I FULL NE) as (u & h & Ep & Vu & Nu & Fu & I1 & MAX & LW). exists u. split; [exact Vu|]. split; [exact Nu|]. split; [exact Fu|]. split; [exact LW|].
    unfold iteration. rewrite Ep. cbn [d_dist d_preds d_color d_heap d_log]. destruct (i_def _ _ _ I u Vu) as [du Eu]. rewrite Eu. unfold call at 1. cbn [d_dist d_preds d_color d_heap d_log].
    destruct (raises (DExamine u)).
    - eexists. split; [exact I1|]. split; [reflexivity|]. split; [reflexivity|discriminate].
    - cbn [thn]. set (st1 := mkD _ _ _ _ _) in *. assert (Ed : du = dv st1 u) by (unfold key_of, st1; cbn; rewrite Eu; reflexivity). rewrite Ed.
      destruct (edges_inv u (out_edges u) (S ++ [u]) P st1 I1) as (st2 & H1 & H2 & _); [apply in_app_iff; cbn; auto|exact MAX|auto|]. rewrite H1. cbn [thn]. rewrite call_done by discriminate.
      eexists. split; [|split; [reflexivity|split; [discriminate|]]].
      + cbn [d_dist d_preds d_color d_heap d_log]. destruct H2. constructor; cbn [d_dist d_preds d_color d_heap d_log]; rewrite ?examined_app, ?discovered_app, ?app_nil_r; try assumption.
        intros v Vv Nv. rewrite <- (i_color0 v Vv Nv). unfold color_of. rewrite dget_dset. destruct (eqb_spec v u) as [->|]; [destruct Nv; apply in_app_iff; cbn; auto|reflexivity].
      + intros _ x e J Ie. apply in_app_iff in J. apply in_app_iff. destruct J as [J|[<-|[]]]; [left; apply (FULL x e J Ie)|right; exact Ie].
  Qed.

  Lemma loop_inv : forall fuel S P st, inv S P st -> full S P -> (forall x, In x S -> raises (DExamine x) = false) -> (length V <= fuel + length S)%nat ->
    exists st' S' P', inv S' P' st' /\
      ((dijkstra_loop out_edges target pmap_eweight compare_arg comb raises fuel st = Some (st', Done) /\ full S' P' /\ hp_data (d_heap st') = [] /\ forall x, In x S' -> raises (DExamine x) = false) \/
       (dijkstra_loop out_edges target pmap_eweight compare_arg comb raises fuel st = Some (st', Stopped) /\ exists u, In u V /\ raises (DExamine u) = true /\ dv st' u << infty /\ forall p, walk_of out_edges target s p u -> dv st' u <= COST zero p)).
  Proof.
    induction fuel as [|fuel IH]; intros S P st I FULL QU F; cbn [dijkstra_loop]; unfold heap_bool; destruct (hp_data (d_heap st)) as [|a0 l0] eqn:EH; cbn [length Nat.eqb negb].
    - exists st, S, P. split; [exact I|]. left. auto.
    - exfalso. destruct (iteration_inv S P st I FULL) as (u & Vu & Nu & _); [congruence|].
      assert (L : (length (S ++ [u]) <= length V)%nat). { apply NoDup_incl_length; [apply NoDup_app_intro; [apply (i_Sn _ _ _ I)|repeat constructor; intros []|intros x J [<-|[]]; contradiction]|]. intros x J. apply in_app_iff in J. destruct J as [J|[<-|[]]]; [apply (i_S _ _ _ I x J)|exact Vu]. }
      rewrite app_length in L. cbn in L. lia.
    - exists st, S, P. split; [exact I|]. left. auto.
    - destruct (iteration_inv S P st I FULL) as (u & Vu & Nu & Fu & LW & st' & I' & E' & D' & F'); [congruence|]. rewrite E'. destruct (raises (DExamine u)) eqn:R.
      + exists st', (S ++ [u]), P. split; [exact I'|]. right. split; [reflexivity|]. exists u. rewrite (D' eq_refl). auto.
      + apply (IH _ _ _ I' (F' eq_refl)); [|rewrite app_length; cbn; lia]. intros x J. apply in_app_iff in J. destruct J as [J|[<-|[]]]; auto.
  Qed.

  (** the initial state *)
  Lemma init_dist l : forall st, exists st', each (fun u st => call raises (DInit u) (mkD (dset (d_dist st) u (if Nat.eqb u s then zero else infty)) (d_preds st) (d_color st) (d_heap st) (d_log st))) l st = (st', Done) /\
    d_preds st' = d_preds st /\ d_color st' = d_color st /\ d_heap st' = d_heap st /\ examined_vertices (d_log st') = examined_vertices (d_log st) /\ discovered_vertices (d_log st') = discovered_vertices (d_log st) /\
    forall v, dget (d_dist st') v = if in_dec Nat.eq_dec v l then Some (if Nat.eqb v s then zero else infty) else dget (d_dist st) v.
  Proof.
    induction l as [|u l IH]; intros st; cbn [each]; [exists st; cbn; auto 10|]. rewrite call_done by discriminate. cbn [thn].
    match goal with |- context [each _ l ?x] => destruct (IH x) as (st' & H1 & H2 & H3 & H4 & H5 & H6 & H7) end. exists st'. split; [exact H1|].
    cbn [d_dist d_preds d_color d_heap d_log] in *. rewrite ?examined_app, ?discovered_app, ?app_nil_r in *. do 5 (split; [assumption|]). intros v. rewrite H7. rewrite dget_dset.
    destruct (in_dec Nat.eq_dec v l) as [J|J], (in_dec Nat.eq_dec v (u :: l)) as [K|K]; try reflexivity.
    - destruct K. right. exact J.
    - destruct K as [->|K]; [rewrite eqb_refl; reflexivity|contradiction].
    - destruct (eqb_spec v u) as [->|]; [destruct K; left; reflexivity|reflexivity].
  Qed.

  Lemma dijkstra_spec fuel dist : (length V <= fuel)%nat ->
    exists st S P, inv S P st /\
      ((dijkstra_shortest_paths V out_edges target pmap_eweight compare_arg comb zero infty raises fuel s dist [] [] = Some (st, Done) /\ full S P /\ hp_data (d_heap st) = [] /\ forall x, In x S -> raises (DExamine x) = false) \/
       (dijkstra_shortest_paths V out_edges target pmap_eweight compare_arg comb zero infty raises fuel s dist [] [] = Some (st, Stopped) /\
         exists u, In u V /\ raises (DExamine u) = true /\ dv st u << infty /\ forall p, walk_of out_edges target s p u -> dv st u <= COST zero p)).
  Proof.
    intros F. unfold dijkstra_shortest_paths, initialization. cbn [d_dist d_preds d_color d_heap d_log].
    match goal with |- context [each _ V ?x] => destruct (init_dist V x) as (st0 & H1 & H2 & H3 & H4 & H5 & H6 & H7) end.
    rewrite H1. cbn [d_dist d_preds d_color d_heap d_log] in *. clear H1. rewrite H7. destruct (in_dec Nat.eq_dec s V) as [_|]; [|contradiction].
    assert (K : forall v, In v V -> key_of (d_dist st0) v = if Nat.eqb v s then zero else infty) by (intros v Vv; unfold key_of; rewrite H7; destruct (in_dec Nat.eq_dec v V); [reflexivity|contradiction]).
    apply (loop_inv fuel [] []); [|intros x e []|intros x []|cbn; lia].
    constructor; cbn [d_dist d_preds d_color d_heap d_log]; rewrite ?H2, ?H3, ?H5, ?H6.
    - intros v Vv. rewrite H7. destruct (in_dec Nat.eq_dec v V); [eauto|contradiction].
    - intros v Vv. rewrite (K _ Vv). destruct (Nat.eqb _ s); [split; [apply le_refl|auto]|split; [apply lt_le, H_infty|auto]].
    - rewrite (K s H_source), Nat.eqb_refl. reflexivity.
    - intros v Vv. rewrite (K v Vv). destruct (Nat.eqb_spec v s) as [->|]; [|rewrite le_refl; discriminate]. intros _. exists []. split; [constructor|reflexivity].
    - intros p c a b Hp C Ha Hb. destruct c as [|c]; [unfold child in C; lia|destruct c; discriminate].
    - intros it [<-|[]]. reflexivity.
    - constructor; [intros []|constructor].
    - intros v. split; [intros [EV|[]]; cbn in EV; subst v; rewrite (K s H_source), Nat.eqb_refl; split; [exact H_source|]; split; [intros []|exact H_infty]|]. intros (Vv & _ & L). rewrite (K _ Vv) in L. destruct (Nat.eqb_spec v s) as [->|]; [left; reflexivity|rewrite le_refl in L; discriminate].
    - intros x [].
    - constructor.
    - intros x v [].
    - intros e [].
    - intros v e. cbn. tauto.
    - intros v. constructor.
    - intros v Vv L N. rewrite (K v Vv) in L. destruct (Nat.eqb_spec v s); [contradiction|rewrite le_refl in L; discriminate].
    - intros v Vv _. unfold color_of. rewrite dget_dset. destruct (eqb_spec v s); match goal with |- _ = (if ?b then _ else _) => destruct b end; reflexivity.
    - reflexivity.
    - reflexivity.
    - constructor.
    - cbn. intros v. split; [intros []|]. intros (N & Vv & L). rewrite (K _ Vv) in L. destruct (Nat.eqb_spec v s); [contradiction|rewrite le_refl in L; discriminate].
    - constructor.
  Qed.

  (** ** What the invariant says *)
  Lemma final_S S P st : inv S P st -> hp_data (d_heap st) = [] -> forall v, In v S <-> In v V /\ dv st v << infty.
  Proof.
    intros I HE v. split; [apply (i_S _ _ _ I)|]. intros [Vv Fv]. destruct (in_dec Nat.eq_dec v S) as [J|J]; [exact J|]. exfalso. assert (K : In v (HV st)) by (apply (i_in _ _ _ I); auto). rewrite HE in K. destruct K.
  Qed.
  Lemma final_lower S P st : inv S P st -> full S P -> hp_data (d_heap st) = [] -> forall v p, walk_of out_edges target s p v -> dv st v <= COST zero p /\ In v V.
  Proof.
    intros I FULL HE. assert (G : forall a p v, walk_of out_edges target a p v -> In a V -> forall k, zero <= k -> dv st a <= k -> dv st v <= COST k p /\ In v V); [|intros v p Wp; apply (G s p v Wp H_source); [apply le_refl|rewrite (i_src _ _ _ I); apply le_refl]].
    induction 1 as [a|a e p v Ie _ IH]; intros Va k Kp Hk; cbn [cost_from fold_left]; [auto|]. destruct (H_edges a e Va Ie) as (Es & Vt & _ & [WX WM WT]).
    change (fold_left _ p (comb k (w e))) with (COST (comb k (w e)) p). destruct (le_total infty k) as [Fk|Fk].
    - apply (IH Vt); [apply (le_trans _ infty); [apply lt_le, H_infty|apply WT, Fk]|]. apply (le_trans _ infty); [apply (top_le S P st _ I Vt)|apply WT, Fk].
    - apply (IH Vt); [apply (le_trans _ k); [exact Kp|apply WX; assumption]|]. assert (Ja : In a S) by (apply (final_S S P st I HE); split; [exact Va|apply (le_lt_trans _ k); assumption]).
      destruct (i_P _ _ _ I e (FULL a e Ja Ie)) as (_ & _ & J3). rewrite Es in J3. apply (le_trans _ _ _ J3). apply WM; [apply (i_top _ _ _ I a Va)|exact Hk|exact Fk].
  Qed.
  Lemma final_distance S P st : inv S P st -> full S P -> hp_data (d_heap st) = [] -> forall v, In v V -> best_cost_is lt comb zero infty out_edges target w s v (dv st v).
  Proof.
    intros I FULL HE v Vv. destruct (proj2 (i_top _ _ _ I v Vv)) as [F|F].
    - right. split; [exact F|]. intros p Wp. pose proof (proj1 (final_lower S P st I FULL HE v p Wp)) as H. rewrite F in H. exact H.
    - left. split; [exact F|]. destruct (i_walk _ _ _ I v Vv F) as (p & Wp & Ep). exists p. split; [|exact Ep]. split; [exact Wp|]. intros q Wq. unfold cost. rewrite Ep. apply (final_lower S P st I FULL HE v q Wq).
  Qed.
  (** a predecessor of a vertex below infinity *)
  Lemma pred_tight S P st v e : inv S P st -> In e (preds_of (d_preds st) v) ->
    In (source e) V /\ In e (out_edges (source e)) /\ target e = v /\ comb (dv st (source e)) (w e) = dv st v /\ dv st (source e) << infty.
  Proof.
    intros I J. apply (i_preds _ _ _ I) in J. destruct J as (J & Et & Ec). destruct (i_P _ _ _ I e J) as (J1 & J2 & _). destruct (i_S _ _ _ I _ J1) as [Vs Fs]. auto.
  Qed.
  (** [L]: the vertices of the path, after u *)
  Definition tail_ok (st : dstate E D) (u : nat) (L : list nat) : Prop :=
    NoDup (u :: L) /\ (forall x, In x (u :: L) -> In x V) /\ forall x, In x L -> exists q, q <> [] /\ walk_of out_edges target u q x /\ COST (dv st u) q = dv st x.
  Lemma tail_step S P st u L e : inv S P st -> worsening_cycles lt comb zero infty out_edges target w V -> In u V -> tail_ok st u L -> In e (preds_of (d_preds st) u) -> tail_ok st (source e) (u :: L).
  Proof.
    intros I NZ Vu (T1 & T2 & T3) J. destruct (pred_tight S P st u e I J) as (H1 & H2 & H3 & H4 & H5).
    assert (Q : forall x, In x (u :: L) -> exists q, q <> [] /\ walk_of out_edges target (source e) q x /\ COST (dv st (source e)) q = dv st x).
    { intros x [<-|Jx]; [exists [e]; split; [discriminate|]; split; [constructor; [exact H2|]; rewrite H3; constructor|exact H4]|].
      destruct (T3 x Jx) as (q & N & Wq & Eq). exists (e :: q). split; [discriminate|]. split; [constructor; [exact H2|]; rewrite H3; exact Wq|]. change (COST (comb (dv st (source e)) (w e)) q = dv st x). rewrite H4. exact Eq. }
    split; [|split; [|exact Q]].
    - constructor; [|exact T1]. intros Jx. destruct (Q _ Jx) as (q & N & Wq & Eq). pose proof (NZ _ q (dv st (source e)) H1 Wq N (proj1 (i_top _ _ _ I _ H1)) H5) as H. rewrite Eq, le_refl in H. discriminate.
    - intros x [<-|Jx]; auto.
  Qed.
  Lemma tail_length st u L : tail_ok st u L -> (Datatypes.S (length L) <= length V)%nat.
  Proof. intros (T1 & T2 & _). apply (NoDup_incl_length T1). exact T2. Qed.
  Lemma path_spec S P st ord t : inv S P st -> valid_order ord -> worsening_cycles lt comb zero infty out_edges target w V -> forall fuel u acc L,
    In u V -> dv st u << infty -> walk_of out_edges target u acc t -> tail_ok st u L -> (length V <= Datatypes.S (fuel + length L))%nat ->
    exists p, path_loop source fuel ord s u (d_preds st) acc = Some (Ok p) /\ walk_of out_edges target s p t /\ COST zero p = COST (dv st u) acc.
  Proof.
    intros I OV NZ. induction fuel as [|fuel IH]; intros u acc L Vu Fu Wa TO LF; cbn [path_loop]; destruct (Nat.eqb_spec u s) as [->|Nu].
    - exists acc. rewrite (i_src _ _ _ I). auto.
    - exfalso. pose proof (i_some _ _ _ I u Vu Fu Nu) as NE. destruct (preds_of (d_preds st) u) as [|e l] eqn:Ep; [contradiction|].
      assert (T := tail_step S P st u L e I NZ Vu TO ltac:(rewrite Ep; left; reflexivity)). apply tail_length in T. cbn in T. lia.
    - exists acc. rewrite (i_src _ _ _ I). auto.
    - pose proof (i_some _ _ _ I u Vu Fu Nu) as NE. pose proof (OV fuel (preds_of (d_preds st) u)) as PO. destruct (ord fuel (preds_of (d_preds st) u)) as [|e l]; [apply Permutation_nil in PO; contradiction|].
      assert (J : In e (preds_of (d_preds st) u)) by (apply (Permutation_in _ PO); left; reflexivity).
      destruct (pred_tight S P st u e I J) as (H1 & H2 & H3 & H4 & H5).
      destruct (IH (source e) (e :: acc) (u :: L) H1 H5) as (p & Q1 & Q2 & Q3).
      + constructor; [exact H2|]. rewrite H3. exact Wa.
      + apply (tail_step S P st u L e I NZ Vu TO J).
      + cbn. lia.
      + exists p. split; [exact Q1|]. split; [exact Q2|]. rewrite Q3, <- H4. reflexivity.
  Qed.
  Lemma tail_start st t : In t V -> tail_ok st t [].
  Proof. intros Vt. split; [repeat constructor; intros []|]. split; [intros x [<-|[]]; exact Vt|intros x []]. Qed.
End P.
