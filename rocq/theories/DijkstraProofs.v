(** Lemmas on Dijkstra's algorithm: the invariant of the loop. *)
From Coq Require Import Sorted.
From Verif Require Import Search Heap HeapProofs Dijkstra DijkstraSpec Base BaseProofs.
Open Scope Z_scope.
#[local] Arguments dkeys : simpl never.

Definition examined_vertices {E} (l : list (devent E)) : list nat := flat_map (fun x => match x with DExamine v => [v] | _ => [] end) l.
Definition discovered_vertices {E} (l : list (devent E)) : list nat := flat_map (fun x => match x with DDiscover v => [v] | _ => [] end) l.

Section P.
  Context {E : Type} {EE : EqDec E}.
  Variables (V : list nat) (out_edges : nat -> list E) (source target : E -> nat) (pmap_eweight : E -> res Z) (w : E -> Z).
  Variable compare_arg : option (Z -> Z -> bool).
  Variables (absorbing infty : Z) (raises : devent E -> bool) (s : nat).
  Hypothesis H_compare : compare_arg = None \/ compare_arg = Some Less.
  Hypothesis H_infty : 0 < infty <= absorbing.
  Hypothesis H_source : In s V.
  Hypothesis H_edges : forall u e, In u V -> In e (out_edges u) -> source e = u /\ In (target e) V /\ pmap_eweight e = Ok (w e) /\ 0 <= w e.
  Hypothesis H_raises : forall x, raises x = true -> exists v, x = DExamine v.

  Local Notation comb := (closed_plus absorbing).
  Local Notation KS := (ks compare_arg).
  Local Notation ITEM := (item nat Z).
  Local Notation dv st := (key_of (d_dist st)).
  Local Notation HV st := (map snd (hp_data (d_heap st))).

  Definition kile (a b : ITEM) : Prop := fst (fst a) <= fst (fst b).
  Lemma kile_refl a : kile a a. Proof. unfold kile. lia. Qed.
  Lemma kile_trans a b c : kile a b -> kile b c -> kile a c. Proof. unfold kile. lia. Qed.
  Lemma klt_le a b : item_lt KS a b = true -> kile a b.
  Proof.
    destruct a as [[ka ia] xa], b as [[kb ib] xb]. unfold kile, item_lt, ks. cbn [fst]. destruct H_compare as [-> | ->]; cbn.
    - destruct (eqb_spec ka kb); [lia|]. intros H. apply Z.ltb_lt in H. lia.
    - unfold C_eq, C_lt, Less. destruct (Z.ltb_spec ka kb), (Z.ltb_spec kb ka); cbn; intros; try lia; discriminate.
  Qed.
  Lemma knlt_le a b : item_lt KS a b = false -> kile b a.
  Proof.
    destruct a as [[ka ia] xa], b as [[kb ib] xb]. unfold kile, item_lt, ks. cbn [fst]. destruct H_compare as [-> | ->]; cbn.
    - destruct (eqb_spec ka kb); [lia|]. intros H. apply Z.ltb_ge in H. lia.
    - unfold C_eq, C_lt, Less. destruct (Z.ltb_spec ka kb), (Z.ltb_spec kb ka); cbn; intros; try lia; discriminate.
  Qed.
  Lemma compare_less : compare compare_arg = Z.ltb.
  Proof. destruct H_compare as [-> | ->]; reflexivity. Qed.

  (** decrease_key, on a heap with one item for each element *)
  Lemma decrease_spec (key : nat -> Z) (D : list ITEM) v : is_heap kile D -> NoDup (map snd D) -> In v (map snd D) ->
    let f := fun it : ITEM => if eqb v (snd it) then (key v, snd (fst it), v) else it in
    Permutation (decrease_loop KS key (length D) 0 D v) (map f D) /\ is_heap kile (decrease_loop KS key (length D) 0 D v).
  Proof.
    intros HD ND IV f.
    assert (G : forall n i data, length data = length D -> (n + i = length D)%nat ->
      (data = D /\ (forall j it, (j < i)%nat -> nth_error D j = Some it -> snd it <> v)) \/ (is_heap kile data /\ Permutation data (map f D)) ->
      Permutation (decrease_loop KS key n i data v) (map f D) /\ is_heap kile (decrease_loop KS key n i data v)).
    { induction n as [|n IH]; intros i data L Ei INV; cbn [decrease_loop].
      - destruct INV as [[-> N]|[H P]]; [|auto]. exfalso. apply in_map_iff in IV. destruct IV as (it & Ev & I). apply In_nth_error in I. destruct I as [j Hj]. apply (N j it); [apply nth_lt in Hj; unfold item in *; lia|exact Hj|exact Ev].
      - destruct (lt_nth data i) as [[[k index] x] Hi]; [lia|]. rewrite Hi. destruct (eqb_spec v x) as [<-|Nx].
        + destruct (heapify_spec (item_lt KS) kile kile_refl kile_trans klt_le knlt_le (upd data i (key v, index, v))) as [P1 P2].
          apply IH; [rewrite (Permutation_length P1), length_upd; exact L|lia|]. right. split; [exact P2|]. rewrite P1. destruct INV as [[-> N]|[H P]].
          * replace (upd D i (key v, index, v)) with (map f D); [reflexivity|]. clear -ND Hi. revert i Hi. induction D as [|it D IHD]; intros [|i] Hi; cbn in *; try discriminate.
            -- injection Hi as ->. inversion ND as [|? ? N1 N2]; subst. apply (f_equal2 cons); [unfold f; cbn; rewrite eqb_refl; reflexivity|]. transitivity (map (fun x => x) D); [|apply map_id].
               apply map_ext_in. intros a I. unfold f. destruct (eqb_spec v (snd a)) as [E0|]; [|reflexivity]. exfalso. apply N1. cbn. rewrite E0. apply in_map, I.
            -- inversion ND as [|? ? N1 N2]; subst. apply (f_equal2 cons); [|apply IHD; assumption]. unfold f. destruct (eqb_spec v (snd it)) as [E0|]; [|reflexivity]. exfalso. apply N1. rewrite <- E0.
               apply in_map_iff. exists (k, index, v). split; [reflexivity|]. apply (nth_error_In _ _ Hi).
          * replace (upd data i (key v, index, v)) with data; [exact P|]. symmetry. apply upd_same. rewrite Hi. f_equal. f_equal. f_equal.
            assert (I : In (k, index, v) (map f D)) by (apply (Permutation_in _ P), (nth_error_In _ _ Hi)). apply in_map_iff in I. destruct I as ([[k0 i0] v0] & E0 & _). unfold f in E0. cbn in E0.
            destruct (eqb_spec v v0); congruence.
        + apply IH; [exact L|lia|]. destruct INV as [[-> N]|R]; [left|right; exact R]. split; [reflexivity|]. intros j it Lj Hj. destruct (Nat.eq_dec j i) as [->|]; [rewrite Hi in Hj; injection Hj as <-; cbn; congruence|apply (N j); [lia|exact Hj]]. }
    apply G; [reflexivity|lia|]. left. split; [reflexivity|]. intros j it L. lia.
  Qed.

  Lemma comb_spec x y : x < infty -> comb x y = x + y \/ (y = absorbing /\ comb x y = absorbing).
  Proof. intros L. unfold closed_plus. destruct (Z.eqb_spec x absorbing); [lia|]. destruct (Z.eqb_spec y absorbing); cbn; auto. Qed.

  Record inv (S : list nat) (P : list E) (st : dstate E Z) : Prop := {
    i_def : forall v, In v V -> exists d, dget (d_dist st) v = Some d;
    i_top : forall v, In v V -> 0 <= dv st v <= infty;
    i_src : dv st s = 0;
    i_walk : forall v, In v V -> dv st v < infty -> exists p, walk_of out_edges target s p v /\ weight w p = dv st v;
    i_heap : is_heap kile (hp_data (d_heap st));
    i_key : forall it, In it (hp_data (d_heap st)) -> fst (fst it) = dv st (snd it);
    i_nodup : NoDup (HV st);
    i_in : forall v, In v (HV st) <-> In v V /\ ~ In v S /\ dv st v < infty;
    i_S : forall x, In x S -> In x V /\ dv st x < infty;
    i_Sn : NoDup S;
    i_le : forall x v, In x S -> In v V -> ~ In v S -> dv st x <= dv st v;
    i_P : forall e, In e P -> In (source e) S /\ In e (out_edges (source e)) /\ dv st (target e) <= comb (dv st (source e)) (w e);
    i_preds : forall v e, In e (preds_of (d_preds st) v) <-> In e P /\ target e = v /\ comb (dv st (source e)) (w e) = dv st v;
    i_pn : forall v, NoDup (preds_of (d_preds st) v);
    i_some : forall v, In v V -> dv st v < infty -> v <> s -> preds_of (d_preds st) v <> [];
    i_color : forall v, In v V -> ~ In v S -> color_of (d_color st) v = (if in_dec Nat.eq_dec v (HV st) then match S with [] => WHITE | _ => GRAY end else WHITE);
    i_first : S = [] -> HV st = [s];
    i_log : examined_vertices (d_log st) = S;
    i_sorted : StronglySorted (fun x y => dv st x <= dv st y) S;
    i_disc : forall v, In v (discovered_vertices (d_log st)) <-> v <> s /\ In v V /\ dv st v < infty;
    i_discn : NoDup (discovered_vertices (d_log st))
  }.
  Definition quiet (st st' : dstate E Z) : Prop := d_dist st' = d_dist st /\ d_preds st' = d_preds st /\ d_color st' = d_color st /\ d_heap st' = d_heap st /\
    examined_vertices (d_log st') = examined_vertices (d_log st) /\ discovered_vertices (d_log st') = discovered_vertices (d_log st).
  Lemma inv_quiet S P st st' : quiet st st' -> inv S P st -> inv S P st'.
  Proof. destruct st, st'. unfold quiet. cbn. intros (-> & -> & -> & -> & E1 & E2) []. constructor; cbn in *; rewrite ?E1, ?E2; assumption. Qed.
  Lemma call_done x (st : dstate E Z) : (forall v, x <> DExamine v) -> call raises x st = (mkD (d_dist st) (d_preds st) (d_color st) (d_heap st) (d_log st ++ [x]), Done).
  Proof. intros N. unfold call. destruct (raises x) eqn:R; [|reflexivity]. destruct (H_raises x R) as [v ->]. destruct (N v eq_refl). Qed.
  Lemma examined_app (a b : list (devent E)) : examined_vertices (a ++ b) = examined_vertices a ++ examined_vertices b.
  Proof. apply flat_map_app. Qed.
  Lemma discovered_app (a b : list (devent E)) : discovered_vertices (a ++ b) = discovered_vertices a ++ discovered_vertices b.
  Proof. apply flat_map_app. Qed.
  Lemma key_of_dset d v k x : key_of (dset d v k) x = if eqb x v then k else key_of d x.
  Proof. unfold key_of. rewrite dget_dset. destruct (eqb_spec x v); reflexivity. Qed.
  Lemma color_read_fst c v : fst (color_read c v) = color_of c v.
  Proof. unfold color_read, color_of. destruct (dget c v); reflexivity. Qed.
  Lemma color_read_of c v x : color_of (snd (color_read c v)) x = color_of c x.
  Proof. unfold color_read, color_of. destruct (dget c v) eqn:G; cbn; [reflexivity|]. rewrite dget_dset. destruct (eqb_spec x v) as [->|]; [rewrite G|]; reflexivity. Qed.
  Lemma preds_of_dset p v (l : list E) x : preds_of (dset p v l) x = if eqb x v then l else preds_of p x.
  Proof. unfold preds_of. rewrite dget_dset. destruct (eqb_spec x v); reflexivity. Qed.

  Lemma weight_app (p q : list E) : weight w (p ++ q) = weight w p + weight w q.
  Proof. induction p as [|e p IH]; cbn [app weight fold_right]; [reflexivity|]. unfold weight in *. lia. Qed.
  Lemma walk_app u p v q x : walk_of out_edges target u p v -> walk_of out_edges target v q x -> walk_of out_edges target u (p ++ q) x.
  Proof. induction 1; cbn; [auto|]. intros H1. constructor; auto. Qed.

  Lemma edge_step_inv S P st u e : inv S P st -> In u S -> (forall x, In x S -> dv st x <= dv st u) -> In e (out_edges u) ->
    exists st', edge_step target pmap_eweight compare_arg comb raises (dv st u) e st = (st', Done) /\ inv S (P ++ [e]) st' /\ (forall x, In x S -> dv st' x = dv st x).
  Proof.
    intros I Iu MAX Ie. destruct (i_S _ _ _ I u Iu) as [Vu Fu]. destruct (H_edges u e Vu Ie) as (Es & Vt & Ew & Wn). set (v := target e) in *.
    unfold edge_step. rewrite call_done by discriminate. cbn [thn]. fold v. cbn [d_dist]. destruct (i_def _ _ _ I v Vt) as [dvv Ev]. rewrite Ev, Ew.
    assert (Dv : dv st v = dvv) by (unfold key_of; rewrite Ev; reflexivity). rewrite compare_less. set (nd := comb (dv st u) (w e)).
    pose proof (i_top _ _ _ I u Vu) as Tu. pose proof (i_top _ _ _ I v Vt) as Tv. rewrite Dv in Tv.
    assert (ND : nd < infty -> nd = dv st u + w e). { destruct (comb_spec (dv st u) (w e) Fu) as [H|[_ H]]; fold nd in H; [auto|lia]. }
    assert (NDu : dv st u <= nd). { destruct (comb_spec (dv st u) (w e) Fu) as [H|[_ H]]; fold nd in H; lia. }
    destruct (Z.ltb_spec nd dvv) as [L|L].
    - (* relaxed *)
      assert (NvS : ~ In v S). { intros J. specialize (MAX v J). lia. }
      assert (Nvs : v <> s). { intros ->. rewrite (i_src _ _ _ I) in Dv. lia. }
      pose proof (i_color _ _ _ I v Vt NvS) as CV.
      set (dist := dset (d_dist st) v nd).
      assert (KD : forall x, key_of dist x = if eqb x v then nd else dv st x) by (intros x; apply key_of_dset).
      assert (KDv : key_of dist v = nd) by (rewrite KD, eqb_refl; reflexivity).
      assert (KDo : forall x, x <> v -> key_of dist x = dv st x) by (intros x N; rewrite KD; destruct (eqb_spec x v); [contradiction|reflexivity]).
      assert (KDS : forall x, In x S -> key_of dist x = dv st x) by (intros x J; apply KDo; intros ->; contradiction).
      assert (SRC : forall e', In e' P -> key_of dist (source e') = dv st (source e')) by (intros e' J; apply KDS, (i_P _ _ _ I e' J)).
      (* the invariant, but for the heap and the colors *)
      assert (REST : forall colors h log,
        is_heap kile (hp_data h) -> (forall it, In it (hp_data h) -> fst (fst it) = key_of dist (snd it)) -> NoDup (map snd (hp_data h)) ->
        (forall x, In x (map snd (hp_data h)) <-> x = v \/ In x (HV st)) ->
        (forall x, color_of colors x = if eqb x v then GRAY else color_of (d_color st) x) ->
        examined_vertices log = S -> (forall x, In x (discovered_vertices log) <-> x = v \/ In x (discovered_vertices (d_log st))) -> NoDup (discovered_vertices log) ->
        inv S (P ++ [e]) (mkD dist (dset (d_preds st) v [e]) colors h log)).
      { intros cl h log Q1 Q2 Q3 Q4 Q5 Q6 Q7 Q8. constructor; cbn [d_dist d_preds d_color d_heap d_log]; try assumption.
        - intros x Vx. unfold dist. rewrite dget_dset. destruct (eqb_spec x v); [eauto|apply (i_def _ _ _ I x Vx)].
        - intros x Vx. rewrite KD. destruct (eqb_spec x v); [lia|apply (i_top _ _ _ I x Vx)].
        - rewrite KDo by congruence. apply (i_src _ _ _ I).
        - intros x Vx. rewrite KD. destruct (eqb_spec x v) as [->|Nx]; [|apply (i_walk _ _ _ I x Vx)]. intros Lx. destruct (i_walk _ _ _ I u Vu Fu) as (p & Wp & Ep).
          exists (p ++ [e]). split; [apply (walk_app s p u [e] v Wp); constructor; [exact Ie|constructor]|]. rewrite weight_app, Ep, ND by lia. cbn. lia.
        - intros x. rewrite Q4, (i_in _ _ _ I), KD. destruct (eqb_spec x v) as [->|Nx]; [split; [intros _; split; [exact Vt|]; split; [exact NvS|lia]|auto]|]. split; [intros [?|?]; [contradiction|assumption]|auto].
        - intros x J. destruct (i_S _ _ _ I x J) as [? ?]. rewrite (KDS x J). auto.
        - apply (i_Sn _ _ _ I).
        - intros x y J Vy Ny. rewrite (KDS x J), KD. destruct (eqb_spec y v) as [->|]; [specialize (MAX x J); lia|apply (i_le _ _ _ I); assumption].
        - intros e' J. apply in_app_iff in J. destruct J as [J|[<-|[]]].
          + destruct (i_P _ _ _ I e' J) as (J1 & J2 & J3). split; [exact J1|]. split; [exact J2|]. rewrite (SRC e' J), KD. destruct (eqb_spec (target e') v) as [E0|]; [|exact J3]. rewrite E0, Dv in J3. lia.
          + rewrite Es. split; [exact Iu|]. split; [exact Ie|]. rewrite (KDS u Iu). fold v. rewrite KDv. reflexivity.
        - intros x e'. rewrite preds_of_dset, in_app_iff. destruct (eqb_spec x v) as [->|Nx].
          + rewrite KDv. cbn. split.
            * intros [<-|[]]. rewrite Es. split; [auto|]. split; [reflexivity|]. rewrite (KDS u Iu). reflexivity.
            * intros ([J|[<-|[]]] & J2 & J3); [|auto]. exfalso. destruct (i_P _ _ _ I e' J) as (_ & _ & J4). rewrite (SRC e' J) in J3. rewrite J2, Dv in J4. lia.
          + rewrite (KDo x Nx), (i_preds _ _ _ I). cbn. split.
            * intros (J & J2 & J3). rewrite (SRC e' J). auto.
            * intros ([J|[<-|[]]] & J2 & J3); [rewrite (SRC e' J) in J3; auto|]. destruct Nx. symmetry. exact J2.
        - intros x. rewrite preds_of_dset. destruct (eqb_spec x v); [repeat constructor; intros []|apply (i_pn _ _ _ I)].
        - intros x Vx. rewrite KD, preds_of_dset. destruct (eqb_spec x v); [discriminate|apply (i_some _ _ _ I x Vx)].
        - intros x Vx Nx. rewrite Q5. destruct (in_dec Nat.eq_dec x (map snd (hp_data h))) as [J|J].
          + destruct (eqb_spec x v) as [->|Nxv]; [destruct S; [destruct Iu|reflexivity]|]. apply Q4 in J. destruct J as [?|J]; [contradiction|]. rewrite (i_color _ _ _ I x Vx Nx). destruct (in_dec Nat.eq_dec x (HV st)); [reflexivity|contradiction].
          + destruct (eqb_spec x v) as [->|Nxv]; [destruct J; apply Q4; auto|]. rewrite (i_color _ _ _ I x Vx Nx). destruct (in_dec Nat.eq_dec x (HV st)) as [K|K]; [destruct J; apply Q4; auto|reflexivity].
        - intros ->. destruct Iu.
        - assert (SS := i_sorted _ _ _ I). clear -SS KDS. induction SS as [|a l S1 IH F]; constructor; [apply IH; intros x J; apply KDS; right; exact J|]. rewrite Forall_forall in *. intros y J. rewrite !KDS by (cbn; auto). apply F, J.
        - intros x. rewrite Q7, (i_disc _ _ _ I), KD. destruct (eqb_spec x v) as [->|Nx]; [split; [intros _; split; [exact Nvs|]; split; [exact Vt|lia]|auto]|]. split; [intros [?|?]; [contradiction|assumption]|auto]. }
      pose proof (color_read_fst (d_color st) v) as CR. pose proof (color_read_of (d_color st) v) as CO. cbn [d_color d_preds d_heap d_log]. destruct (color_read (d_color st) v) as [c cl]. cbn [fst snd] in CR, CO. subst c. rewrite CV.
      destruct (in_dec Nat.eq_dec v (HV st)) as [Hv|Hv].
      + destruct S as [|s0 S0] eqn:ES; [destruct Iu|]. rewrite <- ES in *. cbn [thn]. rewrite call_done by discriminate.
        destruct (decrease_spec (key_of dist) (hp_data (d_heap st)) v (i_heap _ _ _ I) (i_nodup _ _ _ I) Hv) as [P1 P2]. set (f := fun it : ITEM => _) in P1.
        assert (FS : forall it, snd (f it) = snd it) by (intros it; unfold f; destruct (eqb_spec v (snd it)); cbn; congruence).
        assert (MS : Permutation (map snd (decrease_loop KS (key_of dist) (length (hp_data (d_heap st))) 0 (hp_data (d_heap st)) v)) (HV st)).
        { rewrite P1, map_map. erewrite map_ext by exact FS. reflexivity. }
        eexists. split; [reflexivity|]. split; [|intros x J; cbn [d_dist]; apply KDS, J].
        cbn [d_dist d_preds d_color d_heap d_log]. apply REST; cbn [heap_decrease_key hp_data hp_index].
        * exact P2.
        * intros it J. apply (Permutation_in _ P1) in J. apply in_map_iff in J. destruct J as (it0 & <- & J). rewrite FS. unfold f. destruct (eqb_spec v (snd it0)) as [E0|N0]; cbn; [rewrite E0; reflexivity|]. rewrite KDo by congruence. apply (i_key _ _ _ I), J.
        * apply (Permutation_NoDup (Permutation_sym MS)), (i_nodup _ _ _ I).
        * intros x. split; [intros J; right; apply (Permutation_in _ MS), J|]. intros [->|J]; apply (Permutation_in _ (Permutation_sym MS)); assumption.
        * intros x. rewrite CO. destruct (eqb_spec x v) as [->|]; [rewrite CV; reflexivity|reflexivity].
        * rewrite !examined_app, !app_nil_r. apply (i_log _ _ _ I).
        * intros x. rewrite !discovered_app, !app_nil_r. rewrite (i_disc _ _ _ I). split; [auto|]. intros [->|J]; [|exact J]. split; [exact Nvs|]. split; [exact Vt|]. apply (i_in _ _ _ I), Hv.
        * rewrite !discovered_app, !app_nil_r. apply (i_discn _ _ _ I).
      + rewrite call_done by discriminate. cbn [thn]. rewrite call_done by discriminate. cbn [d_dist d_preds d_color d_heap d_log].
        destruct (heappush_spec (item_lt KS) kile kile_trans klt_le knlt_le (hp_data (d_heap st)) (key_of dist v, hp_index (d_heap st), v) (i_heap _ _ _ I)) as [P1 P2].
        eexists. split; [reflexivity|]. split; [|intros x J; cbn [d_dist]; apply KDS, J].
        assert (Nd : ~ In v (discovered_vertices (d_log st))). { intros J. apply (i_disc _ _ _ I) in J. apply Hv, (i_in _ _ _ I). tauto. }
        apply REST; cbn [heap_push hp_data hp_index].
        * exact P2.
        * intros it J. apply (Permutation_in _ P1) in J. destruct J as [<-|J]; [reflexivity|]. rewrite KDo; [apply (i_key _ _ _ I), J|]. intros E0. apply Hv. rewrite <- E0. apply in_map, J.
        * apply (Permutation_NoDup (Permutation_sym (Permutation_map snd P1))). cbn. constructor; [exact Hv|apply (i_nodup _ _ _ I)].
        * intros x. split; [intros J; apply (Permutation_in _ (Permutation_map snd P1)) in J; cbn in J; destruct J as [<-|J]; auto|]. intros J. apply (Permutation_in _ (Permutation_sym (Permutation_map snd P1))). cbn. destruct J as [->|J]; auto.
        * intros x. unfold color_of at 1. rewrite dget_dset. destruct (eqb_spec x v); [reflexivity|apply CO].
        * rewrite !examined_app, !app_nil_r. apply (i_log _ _ _ I).
        * intros x. rewrite !discovered_app, !in_app_iff. cbn. split; [intros [[[J|[]]|[->|[]]]|[]]; auto|]. intros [->|J]; auto.
        * rewrite !discovered_app, !app_nil_r. cbn. apply NoDup_app_intro; [apply (i_discn _ _ _ I)|repeat constructor; intros []|]. intros x J [<-|[]]. contradiction.
    - assert (COMMON : forall preds log, (forall x e', In e' (preds_of preds x) <-> In e' (P ++ [e]) /\ target e' = x /\ comb (dv st (source e')) (w e') = dv st x) ->
        (forall x, NoDup (preds_of preds x)) -> examined_vertices log = examined_vertices (d_log st) -> discovered_vertices log = discovered_vertices (d_log st) ->
        inv S (P ++ [e]) (mkD (d_dist st) preds (d_color st) (d_heap st) log)).
      { intros preds log Q1 Q2 Q3 Q4. destruct I. constructor; cbn [d_dist d_preds d_color d_heap d_log]; rewrite ?Q3, ?Q4; try assumption.
        - intros e' J. apply in_app_iff in J. destruct J as [J|[<-|[]]]; [auto|]. rewrite Es. split; [exact Iu|]. split; [exact Ie|]. fold v nd. lia.
        - intros x Vx Fx Nx. specialize (i_some0 x Vx Fx Nx). destruct (preds_of (d_preds st) x) as [|e0 l0] eqn:E0; [contradiction|]. assert (J : In e0 (preds_of preds x)).
          { apply Q1. assert (J : In e0 (preds_of (d_preds st) x)) by (rewrite E0; left; reflexivity). apply i_preds0 in J. rewrite in_app_iff. tauto. } intros E1. rewrite E1 in J. destruct J. }
      destruct (eqb_spec nd dvv) as [EQ|NE]; rewrite call_done by discriminate; eexists; (split; [reflexivity|]); (split; [|reflexivity]); cbn [d_dist d_preds d_color d_heap d_log].
      + apply COMMON.
        * intros x e'. rewrite preds_of_dset. destruct (eqb_spec x v) as [->|Nx].
          -- rewrite In_sadd, (i_preds _ _ _ I), in_app_iff. cbn. split.
             ++ intros [->|J]; [|tauto]. rewrite Es. fold nd. split; [auto|]. split; [reflexivity|lia].
             ++ intros ([J|[<-|[]]] & J2 & J3); [right; auto|left; reflexivity].
          -- rewrite (i_preds _ _ _ I), in_app_iff. cbn. split; [tauto|]. intros ([J|[<-|[]]] & J2 & J3); [auto|]. destruct Nx. symmetry. exact J2.
        * intros x. rewrite preds_of_dset. destruct (eqb_spec x v); [apply NoDup_sadd|]; apply (i_pn _ _ _ I).
        * rewrite !examined_app, !app_nil_r. reflexivity.
        * rewrite !discovered_app, !app_nil_r. reflexivity.
      + apply COMMON.
        * intros x e'. rewrite (i_preds _ _ _ I), in_app_iff. cbn. split; [tauto|]. intros ([J|[<-|[]]] & J2 & J3); [auto|]. exfalso. subst x. fold v in J3. rewrite Es in J3. fold nd in J3. lia.
        * apply (i_pn _ _ _ I).
        * rewrite !examined_app, !app_nil_r. reflexivity.
        * rewrite !discovered_app, !app_nil_r. reflexivity.
  Qed.

  Lemma edges_inv u l : forall S P st, inv S P st -> In u S -> (forall x, In x S -> dv st x <= dv st u) -> (forall e, In e l -> In e (out_edges u)) ->
    exists st', each (edge_step target pmap_eweight compare_arg comb raises (dv st u)) l st = (st', Done) /\ inv S (P ++ l) st' /\ (forall x, In x S -> dv st' x = dv st x).
  Proof.
    induction l as [|e l IH]; intros S P st I Iu MAX Il; cbn [each]; [exists st; rewrite app_nil_r; auto|].
    destruct (edge_step_inv S P st u e I Iu MAX (Il e (or_introl eq_refl))) as (st1 & H1 & H2 & H3). rewrite H1. cbn [thn].
    destruct (IH S (P ++ [e]) st1 H2 Iu) as (st2 & H4 & H5 & H6).
    - intros x J. rewrite !H3 by assumption. apply MAX, J.
    - intros e' J. apply Il. right. exact J.
    - rewrite (H3 u Iu) in H4. exists st2. split; [exact H4|]. rewrite <- app_assoc in H5. split; [exact H5|]. intros x J. rewrite H6, H3 by assumption. reflexivity.
  Qed.

  (** all the edges out of S are in P *)
  Definition full (S : list nat) (P : list E) : Prop := forall x e, In x S -> In e (out_edges x) -> In e P.

  (** the vertex popped: it is not further than any vertex outside S, and its distance is the right one *)
  Lemma pop_inv S P st : inv S P st -> full S P -> hp_data (d_heap st) <> [] ->
    exists u h, heap_pop KS (d_heap st) = (h, Ok u) /\ In u V /\ ~ In u S /\ dv st u < infty /\
      inv (S ++ [u]) P (mkD (d_dist st) (d_preds st) (d_color st) h (d_log st ++ [DExamine u])) /\
      (forall x, In x (S ++ [u]) -> dv st x <= dv st u) /\ (forall p, walk_of out_edges target s p u -> dv st u <= weight w p).
  Proof.
    intros I FULL NE. destruct (heappop_spec (item_lt KS) kile kile_refl kile_trans klt_le knlt_le (hp_data (d_heap st)) (i_heap _ _ _ I) NE) as (m & d' & Ep & Pm & Hd & MIN).
    destruct m as [[km im] u]. exists u, (mkHeap d' (hp_index (d_heap st))). split; [unfold heap_pop; rewrite Ep; reflexivity|].
    assert (Iu : In u (HV st)) by (apply in_map_iff; exists (km, im, u); split; [reflexivity|]; apply (Permutation_in _ (Permutation_sym Pm)); left; reflexivity).
    assert (Km : km = dv st u) by (apply (i_key _ _ _ I (km, im, u)), (Permutation_in _ (Permutation_sym Pm)); left; reflexivity).
    destruct (proj1 (i_in _ _ _ I u) Iu) as (Vu & Nu & Fu). pose proof (Permutation_map snd Pm) as PV. cbn in PV.
    assert (NDu : ~ In u (map snd d') /\ NoDup (map snd d')). { pose proof (Permutation_NoDup PV (i_nodup _ _ _ I)) as ND. inversion ND; auto. }
    assert (LEAST : forall v, In v V -> ~ In v S -> dv st u <= dv st v).
    { intros v Vv Nv. destruct (Z.lt_ge_cases (dv st v) infty) as [Fv|Fv]; [|lia]. assert (J : In v (HV st)) by (apply (i_in _ _ _ I); auto). apply in_map_iff in J. destruct J as (it & <- & J).
      pose proof (MIN it J) as M. unfold kile in M. cbn in M. rewrite (i_key _ _ _ I it J) in M. lia. }
    split; [exact Vu|]. split; [exact Nu|]. split; [exact Fu|].
    assert (MAX : forall x, In x (S ++ [u]) -> dv st x <= dv st u). { intros x J. apply in_app_iff in J. destruct J as [J|[<-|[]]]; [apply (i_le _ _ _ I); assumption|lia]. }
    split; [|split; [exact MAX|]].
    - destruct I. constructor; cbn [d_dist d_preds d_color d_heap d_log hp_data]; try assumption.
      + intros it J. apply i_key0. apply (Permutation_in _ (Permutation_sym Pm)). right. exact J.
      + apply NDu.
      + intros v. split.
        * intros J. assert (J' : In v (HV st)) by (apply (Permutation_in _ (Permutation_sym PV)); right; exact J). apply i_in0 in J'. destruct J' as (J1 & J2 & J3). split; [exact J1|]. split; [|exact J3]. rewrite in_app_iff. cbn. intros [K|[->|[]]]; [contradiction|]. apply (proj1 NDu), J.
        * intros (J1 & J2 & J3). assert (J' : In v (HV st)) by (apply i_in0; split; [exact J1|]; split; [|exact J3]; intros K; apply J2, in_app_iff; auto). apply (Permutation_in _ PV) in J'. destruct J' as [<-|J']; [|exact J']. destruct J2. apply in_app_iff. cbn. auto.
      + intros x J. apply in_app_iff in J. destruct J as [J|[<-|[]]]; auto.
      + apply NoDup_app_intro; [assumption|repeat constructor; intros []|]. intros x J [<-|[]]. contradiction.
      + intros x v J Vv Nv. assert (Nv' : ~ In v S) by (intros K; apply Nv, in_app_iff; auto). apply in_app_iff in J. destruct J as [J|[<-|[]]]; [apply i_le0; assumption|apply LEAST; assumption].
      + intros e J. destruct (i_P0 e J) as (J1 & J2 & J3). split; [apply in_app_iff; auto|auto].
      + intros v Vv Nv. assert (Nv' : ~ In v S) by (intros K; apply Nv, in_app_iff; auto). assert (Nvu : v <> u) by (intros ->; apply Nv, in_app_iff; cbn; auto). rewrite (i_color0 v Vv Nv').
        destruct (in_dec Nat.eq_dec v (HV st)) as [J|J], (in_dec Nat.eq_dec v (map snd d')) as [K|K].
        * destruct S as [|s0 S0]; [|reflexivity]. exfalso. rewrite (i_first0 eq_refl) in PV, J, Iu. apply Permutation_length in PV. cbn in PV. destruct d'; [destruct K|discriminate].
        * exfalso. apply (Permutation_in _ PV) in J. destruct J as [J|J]; [congruence|contradiction].
        * exfalso. apply J, (Permutation_in _ (Permutation_sym PV)). right. exact K.
        * reflexivity.
      + intros K. destruct S; discriminate.
      + rewrite examined_app, i_log0. reflexivity.
      + clear -i_sorted0 MAX. induction i_sorted0 as [|a l S1 IH F]; cbn; [repeat constructor|]. constructor; [apply IH; intros x J; apply MAX; right; exact J|]. apply Forall_app. split; [exact F|]. constructor; [apply MAX; left; reflexivity|constructor].
      + rewrite discovered_app, app_nil_r. assumption.
      + rewrite discovered_app, app_nil_r. assumption.
    - (* no walk is lighter *)
      assert (G : forall a p v, walk_of out_edges target a p v -> In a V -> forall k, 0 <= k -> (dv st a <= k \/ dv st u <= k) -> (dv st v <= k + weight w p \/ dv st u <= k + weight w p)).
      { induction 1 as [a|a e p v Ie _ IH]; intros Va k Kp Hk; cbn [weight fold_right]; [rewrite Z.add_0_r; exact Hk|]. destruct (H_edges a e Va Ie) as (Es & Vt & _ & Wn).
        specialize (IH Vt (k + w e) ltac:(lia)). fold (weight w p). rewrite Z.add_assoc. apply IH. destruct Hk as [Hk|Hk]; [|right; lia]. destruct (in_dec Nat.eq_dec a S) as [Ja|Ja].
        - left. destruct (i_P _ _ _ I e (FULL a e Ja Ie)) as (_ & _ & J3). rewrite Es in J3. destruct (i_S _ _ _ I a Ja) as [_ Fa]. pose proof (i_top _ _ _ I (target e) Vt). pose proof (i_top _ _ _ I a Va).
          destruct (comb_spec (dv st a) (w e) Fa) as [K|[K1 K2]]; lia.
        - right. specialize (LEAST a Va Ja). lia. }
      intros p Wp. specialize (G s p u Wp H_source 0 ltac:(lia) (or_introl (Z.eq_le_incl _ _ (i_src _ _ _ I)))). lia.
  Qed.

  Lemma iteration_inv S P st : inv S P st -> full S P -> hp_data (d_heap st) <> [] ->
    exists u, In u V /\ ~ In u S /\ dv st u < infty /\ (forall p, walk_of out_edges target s p u -> dv st u <= weight w p) /\
      exists st', inv (S ++ [u]) (if raises (DExamine u) then P else P ++ out_edges u) st' /\
        iteration out_edges target pmap_eweight compare_arg comb raises st = (st', if raises (DExamine u) then Stopped else Done) /\
        (raises (DExamine u) = true -> d_dist st' = d_dist st) /\
        (raises (DExamine u) = false -> full (S ++ [u]) (P ++ out_edges u)).
  Proof.
    intros I FULL NE. destruct (pop_inv S P st I FULL NE) as (u & h & Ep & Vu & Nu & Fu & I1 & MAX & LW). exists u. split; [exact Vu|]. split; [exact Nu|]. split; [exact Fu|]. split; [exact LW|].
    unfold iteration. rewrite Ep. cbn [d_dist d_preds d_color d_heap d_log]. destruct (i_def _ _ _ I u Vu) as [du Eu]. rewrite Eu. unfold call at 1. cbn [d_dist d_preds d_color d_heap d_log].
    destruct (raises (DExamine u)).
    - eexists. split; [exact I1|]. split; [reflexivity|]. split; [reflexivity|discriminate].
    - cbn [thn]. set (st1 := mkD _ _ _ _ _) in *. assert (Ed : du = dv st1 u) by (unfold key_of, st1; cbn; rewrite Eu; reflexivity). rewrite Ed.
      destruct (edges_inv u (out_edges u) (S ++ [u]) P st1 I1) as (st2 & H1 & H2 & _); [apply in_app_iff; cbn; auto|exact MAX|auto|]. rewrite H1. cbn [thn]. rewrite call_done by discriminate.
      eexists. split; [|split; [reflexivity|split; [discriminate|]]].
      + cbn [d_dist d_preds d_color d_heap d_log]. destruct H2. constructor; cbn [d_dist d_preds d_color d_heap d_log]; rewrite ?examined_app, ?discovered_app, ?app_nil_r; try assumption.
        intros v Vv Nv. rewrite <- (i_color0 v Vv Nv). unfold color_of. rewrite dget_dset. destruct (eqb_spec v u) as [->|]; [destruct Nv; apply in_app_iff; cbn; auto|reflexivity].
      + intros _ x e J Ie. apply in_app_iff in J. apply in_app_iff. destruct J as [J|[<-|[]]]; [left; apply (FULL x e J Ie)|right; exact Ie].
  Qed.

  Lemma loop_inv : forall fuel S P st, inv S P st -> full S P -> (forall x, In x S -> raises (DExamine x) = false) -> (length V <= fuel + length S)%nat ->
    exists st' S' P', inv S' P' st' /\
      ((dijkstra_loop out_edges target pmap_eweight compare_arg comb raises fuel st = Some (st', Done) /\ full S' P' /\ hp_data (d_heap st') = [] /\ forall x, In x S' -> raises (DExamine x) = false) \/
       (dijkstra_loop out_edges target pmap_eweight compare_arg comb raises fuel st = Some (st', Stopped) /\ exists u, In u V /\ raises (DExamine u) = true /\ dv st' u < infty /\ forall p, walk_of out_edges target s p u -> dv st' u <= weight w p)).
  Proof.
    induction fuel as [|fuel IH]; intros S P st I FULL QU F; cbn [dijkstra_loop]; unfold heap_bool; destruct (hp_data (d_heap st)) as [|a0 l0] eqn:EH; cbn [length Nat.eqb negb].
    - exists st, S, P. split; [exact I|]. left. auto.
    - exfalso. destruct (iteration_inv S P st I FULL) as (u & Vu & Nu & _); [congruence|].
      assert (L : (length (S ++ [u]) <= length V)%nat). { apply NoDup_incl_length; [apply NoDup_app_intro; [apply (i_Sn _ _ _ I)|repeat constructor; intros []|intros x J [<-|[]]; contradiction]|]. intros x J. apply in_app_iff in J. destruct J as [J|[<-|[]]]; [apply (i_S _ _ _ I x J)|exact Vu]. }
      rewrite app_length in L. cbn in L. lia.
    - exists st, S, P. split; [exact I|]. left. auto.
    - destruct (iteration_inv S P st I FULL) as (u & Vu & Nu & Fu & LW & st' & I' & E' & D' & F'); [congruence|]. rewrite E'. destruct (raises (DExamine u)) eqn:R.
      + exists st', (S ++ [u]), P. split; [exact I'|]. right. split; [reflexivity|]. exists u. rewrite (D' eq_refl). auto.
      + apply (IH _ _ _ I' (F' eq_refl)); [|rewrite app_length; cbn; lia]. intros x J. apply in_app_iff in J. destruct J as [J|[<-|[]]]; auto.
  Qed.

  (** the initial state *)
  Lemma init_dist l : forall st, exists st', each (fun u st => call raises (DInit u) (mkD (dset (d_dist st) u (if Nat.eqb u s then 0 else infty)) (d_preds st) (d_color st) (d_heap st) (d_log st))) l st = (st', Done) /\
    d_preds st' = d_preds st /\ d_color st' = d_color st /\ d_heap st' = d_heap st /\ examined_vertices (d_log st') = examined_vertices (d_log st) /\ discovered_vertices (d_log st') = discovered_vertices (d_log st) /\
    forall v, dget (d_dist st') v = if in_dec Nat.eq_dec v l then Some (if Nat.eqb v s then 0 else infty) else dget (d_dist st) v.
  Proof.
    induction l as [|u l IH]; intros st; cbn [each]; [exists st; cbn; auto 10|]. rewrite call_done by discriminate. cbn [thn].
    match goal with |- context [each _ l ?x] => destruct (IH x) as (st' & H1 & H2 & H3 & H4 & H5 & H6 & H7) end. exists st'. split; [exact H1|].
    cbn [d_dist d_preds d_color d_heap d_log] in *. rewrite ?examined_app, ?discovered_app, ?app_nil_r in *. do 5 (split; [assumption|]). intros v. rewrite H7. rewrite dget_dset.
    destruct (in_dec Nat.eq_dec v l) as [J|J], (in_dec Nat.eq_dec v (u :: l)) as [K|K]; try reflexivity.
    - destruct K. right. exact J.
    - destruct K as [->|K]; [rewrite eqb_refl; reflexivity|contradiction].
    - destruct (eqb_spec v u) as [->|]; [destruct K; left; reflexivity|reflexivity].
  Qed.

  Lemma dijkstra_spec fuel dist : (length V <= fuel)%nat ->
    exists st S P, inv S P st /\
      ((dijkstra_shortest_paths V out_edges target pmap_eweight compare_arg comb 0 infty raises fuel s dist [] [] = Some (st, Done) /\ full S P /\ hp_data (d_heap st) = [] /\ forall x, In x S -> raises (DExamine x) = false) \/
       (dijkstra_shortest_paths V out_edges target pmap_eweight compare_arg comb 0 infty raises fuel s dist [] [] = Some (st, Stopped) /\
         exists u, In u V /\ raises (DExamine u) = true /\ dv st u < infty /\ forall p, walk_of out_edges target s p u -> dv st u <= weight w p)).
  Proof.
    intros F. unfold dijkstra_shortest_paths, initialization. cbn [d_dist d_preds d_color d_heap d_log].
    match goal with |- context [each _ V ?x] => destruct (init_dist V x) as (st0 & H1 & H2 & H3 & H4 & H5 & H6 & H7) end.
    rewrite H1. cbn [d_dist d_preds d_color d_heap d_log] in *. clear H1. rewrite H7. destruct (in_dec Nat.eq_dec s V) as [_|]; [|contradiction].
    assert (K : forall v, In v V -> key_of (d_dist st0) v = if Nat.eqb v s then 0 else infty) by (intros v Vv; unfold key_of; rewrite H7; destruct (in_dec Nat.eq_dec v V); [reflexivity|contradiction]).
    apply (loop_inv fuel [] []); [|intros x e []|intros x []|cbn; lia].
    constructor; cbn [d_dist d_preds d_color d_heap d_log]; rewrite ?H2, ?H3, ?H5, ?H6.
    - intros v Vv. rewrite H7. destruct (in_dec Nat.eq_dec v V); [eauto|contradiction].
    - intros v Vv. rewrite (K _ Vv). destruct (Nat.eqb _ s); lia.
    - rewrite (K s H_source), Nat.eqb_refl. reflexivity.
    - intros v Vv. rewrite (K v Vv). destruct (Nat.eqb_spec v s) as [->|]; [|lia]. intros _. exists []. split; [constructor|reflexivity].
    - intros p c a b Hp C Ha Hb. destruct c as [|c]; [unfold child in C; lia|destruct c; discriminate].
    - intros it [<-|[]]. reflexivity.
    - constructor; [intros []|constructor].
    - intros v. split; [intros [EV|[]]; cbn in EV; subst v; rewrite (K s H_source), Nat.eqb_refl; split; [exact H_source|]; split; [intros []|lia]|]. intros (Vv & _ & L). rewrite (K _ Vv) in L. destruct (Nat.eqb_spec v s) as [->|]; [left; reflexivity|lia].
    - intros x [].
    - constructor.
    - intros x v [].
    - intros e [].
    - intros v e. cbn. tauto.
    - intros v. constructor.
    - intros v Vv L N. rewrite (K v Vv) in L. destruct (Nat.eqb_spec v s); [contradiction|lia].
    - intros v Vv _. unfold color_of. rewrite dget_dset. destruct (eqb_spec v s); match goal with |- _ = (if ?b then _ else _) => destruct b end; reflexivity.
    - reflexivity.
    - reflexivity.
    - constructor.
    - cbn. intros v. split; [intros []|]. intros (N & Vv & L). rewrite (K _ Vv) in L. destruct (Nat.eqb_spec v s); [contradiction|lia].
    - constructor.
  Qed.

  (** ** What the invariant says *)
  Lemma final_lower S P st : inv S P st -> full S P -> hp_data (d_heap st) = [] -> forall v p, walk_of out_edges target s p v -> dv st v <= weight w p /\ In v V.
  Proof.
    intros I FULL HE. assert (G : forall a p v, walk_of out_edges target a p v -> In a V -> dv st v <= dv st a + weight w p /\ In v V); [|intros v p Wp; destruct (G s p v Wp H_source) as [G1 G2]; rewrite (i_src _ _ _ I) in G1; auto].
    induction 1 as [a|a e p v Ie _ IH]; intros Va; cbn [weight fold_right]; [split; [lia|exact Va]|]. destruct (H_edges a e Va Ie) as (Es & Vt & _ & Wn). destruct (IH Vt) as [H1 H2]. split; [|exact H2]. fold (weight w p).
    enough (dv st (target e) <= dv st a + w e) by lia. pose proof (i_top _ _ _ I (target e) Vt). pose proof (i_top _ _ _ I a Va). destruct (Z.lt_ge_cases (dv st a) infty) as [Fa|Fa]; [|lia].
    assert (Ja : In a S). { destruct (in_dec Nat.eq_dec a S) as [J|J]; [exact J|]. exfalso. assert (K : In a (HV st)) by (apply (i_in _ _ _ I); auto). rewrite HE in K. destruct K. }
    destruct (i_P _ _ _ I e (FULL a e Ja Ie)) as (_ & _ & J3). rewrite Es in J3. destruct (comb_spec (dv st a) (w e) Fa) as [K|[K1 K2]]; lia.
  Qed.
  Lemma final_distance S P st : inv S P st -> full S P -> hp_data (d_heap st) = [] -> forall v, In v V -> distance_is out_edges target w infty s v (dv st v).
  Proof.
    intros I FULL HE v Vv. destruct (Z.lt_ge_cases (dv st v) infty) as [F|F].
    - left. split; [exact F|]. destruct (i_walk _ _ _ I v Vv F) as (p & Wp & Ep). exists p. split; [|exact Ep]. split; [exact Wp|]. intros q Wq. rewrite Ep. apply (final_lower S P st I FULL HE v q Wq).
    - right. pose proof (i_top _ _ _ I v Vv). split; [lia|]. intros p Wp. pose proof (proj1 (final_lower S P st I FULL HE v p Wp)). lia.
  Qed.
  Lemma final_S S P st : inv S P st -> hp_data (d_heap st) = [] -> forall v, In v S <-> In v V /\ dv st v < infty.
  Proof.
    intros I HE v. split; [apply (i_S _ _ _ I)|]. intros [Vv Fv]. destruct (in_dec Nat.eq_dec v S) as [J|J]; [exact J|]. exfalso. assert (K : In v (HV st)) by (apply (i_in _ _ _ I); auto). rewrite HE in K. destruct K.
  Qed.
  (** a predecessor of a vertex below infinity *)
  Lemma pred_tight S P st v e : inv S P st -> In e (preds_of (d_preds st) v) -> dv st v < infty ->
    In (source e) V /\ In e (out_edges (source e)) /\ target e = v /\ dv st (source e) + w e = dv st v /\ dv st (source e) < infty.
  Proof.
    intros I J F. apply (i_preds _ _ _ I) in J. destruct J as (J & Et & Ec). destruct (i_P _ _ _ I e J) as (J1 & J2 & _). destruct (i_S _ _ _ I _ J1) as [Vs Fs].
    split; [exact Vs|]. split; [exact J2|]. split; [exact Et|]. split; [|exact Fs]. destruct (comb_spec (dv st (source e)) (w e) Fs) as [K|[_ K]]; lia.
  Qed.
  (** [no_zero_cycle]: the hypothesis of the theorems on paths. [L]: the vertices of the path, after u *)
  Definition no_zero_cycle : Prop := forall u p, In u V -> walk_of out_edges target u p u -> p <> [] -> 0 < weight w p.
  Definition tail_ok (st : dstate E Z) (u : nat) (L : list nat) : Prop :=
    NoDup (u :: L) /\ (forall x, In x (u :: L) -> In x V) /\ forall x, In x L -> exists q, q <> [] /\ walk_of out_edges target u q x /\ weight w q = dv st x - dv st u.
  Lemma tail_step S P st u L e : inv S P st -> no_zero_cycle -> In u V -> dv st u < infty -> tail_ok st u L -> In e (preds_of (d_preds st) u) -> tail_ok st (source e) (u :: L).
  Proof.
    intros I NZ Vu Fu (T1 & T2 & T3) J. destruct (pred_tight S P st u e I J Fu) as (H1 & H2 & H3 & H4 & H5).
    assert (Q : forall x, In x (u :: L) -> exists q, q <> [] /\ walk_of out_edges target (source e) q x /\ weight w q = dv st x - dv st (source e)).
    { intros x [<-|Jx]; [exists [e]; split; [discriminate|]; split; [constructor; [exact H2|]; rewrite H3; constructor|cbn [weight fold_right]; lia]|].
      destruct (T3 x Jx) as (q & N & Wq & Eq). exists (e :: q). split; [discriminate|]. split; [constructor; [exact H2|]; rewrite H3; exact Wq|]. cbn [weight fold_right]. fold (weight w q). lia. }
    split; [|split; [|exact Q]].
    - constructor; [|exact T1]. intros Jx. destruct (Q _ Jx) as (q & N & Wq & Eq). specialize (NZ _ q H1 Wq N). lia.
    - intros x [<-|Jx]; auto.
  Qed.
  Lemma tail_length st u L : tail_ok st u L -> (Datatypes.S (length L) <= length V)%nat.
  Proof. intros (T1 & T2 & _). apply (NoDup_incl_length T1). exact T2. Qed.
  Lemma path_spec S P st ord t : inv S P st -> valid_order ord -> no_zero_cycle -> forall fuel u acc L,
    In u V -> dv st u < infty -> walk_of out_edges target u acc t -> tail_ok st u L -> (length V <= Datatypes.S (fuel + length L))%nat ->
    exists p, path_loop source fuel ord s u (d_preds st) acc = Some (Ok p) /\ walk_of out_edges target s p t /\ weight w p = dv st u + weight w acc.
  Proof.
    intros I OV NZ. induction fuel as [|fuel IH]; intros u acc L Vu Fu Wa TO LF; cbn [path_loop]; destruct (Nat.eqb_spec u s) as [->|Nu].
    - exists acc. rewrite (i_src _ _ _ I). auto.
    - exfalso. pose proof (i_some _ _ _ I u Vu Fu Nu) as NE. destruct (preds_of (d_preds st) u) as [|e l] eqn:Ep; [contradiction|].
      assert (T := tail_step S P st u L e I NZ Vu Fu TO ltac:(rewrite Ep; left; reflexivity)). apply tail_length in T. cbn in T. lia.
    - exists acc. rewrite (i_src _ _ _ I). auto.
    - pose proof (i_some _ _ _ I u Vu Fu Nu) as NE. pose proof (OV fuel (preds_of (d_preds st) u)) as PO. destruct (ord fuel (preds_of (d_preds st) u)) as [|e l]; [apply Permutation_nil in PO; contradiction|].
      assert (J : In e (preds_of (d_preds st) u)) by (apply (Permutation_in _ PO); left; reflexivity).
      destruct (pred_tight S P st u e I J Fu) as (H1 & H2 & H3 & H4 & H5).
      destruct (IH (source e) (e :: acc) (u :: L) H1 H5) as (p & Q1 & Q2 & Q3).
      + constructor; [exact H2|]. rewrite H3. exact Wa.
      + apply (tail_step S P st u L e I NZ Vu Fu TO J).
      + cbn. lia.
      + exists p. split; [exact Q1|]. split; [exact Q2|]. rewrite Q3. cbn [weight fold_right]. fold (weight w acc). lia.
  Qed.
  Lemma tail_start st t : In t V -> tail_ok st t [].
  Proof. intros Vt. split; [repeat constructor; intros []|]. split; [intros x [<-|[]]; exact Vt|intros x []]. Qed.
  (** make_shortest_paths_dag with single_path *)
  Lemma single_spec S P st ord t : inv S P st -> valid_order ord -> no_zero_cycle -> forall fuel u acc K D L,
    In u V -> dv st u < infty -> walk_of out_edges target u acc t -> tail_ok st u L -> (length V < Datatypes.S (fuel + length L))%nat ->
    (forall e, In e K <-> In e acc) -> NoDup K -> (forall x, In x D <-> In x L) ->
    exists p K', dag_loop source fuel (d_preds st) true ord K [u] D = Some K' /\ NoDup K' /\ walk_of out_edges target s p t /\ weight w p = dv st u + weight w acc /\ forall e, In e K' <-> In e p.
  Proof.
    intros I OV NZ. induction fuel as [|fuel IH]; intros u acc K D L Vu Fu Wa TO LF HK NK HD; [apply tail_length in TO; cbn in *; lia|]. cbn [dag_loop flat_map]. rewrite app_nil_r.
    set (es := sof (preds_of (d_preds st) u)). pose proof (OV fuel es) as PO.
    assert (HES : forall e, In e es <-> In e (preds_of (d_preds st) u)) by (intros e; apply In_sof).
    destruct (ord fuel es) as [|e l].
    - apply Permutation_nil in PO. rewrite PO. cbn [map sof]. assert (Us : u = s). { destruct (Nat.eq_dec u s) as [?|Nu]; [assumption|]. destruct (i_some _ _ _ I u Vu Fu Nu). destruct (preds_of (d_preds st) u) as [|e l]; [reflexivity|]. pose proof (proj2 (HES e) (or_introl eq_refl)) as J. rewrite PO in J. destruct J. }
      subst u. exists acc, K. split; [destruct fuel; reflexivity|]. split; [exact NK|]. split; [exact Wa|]. split; [rewrite (i_src _ _ _ I); lia|exact HK].
    - assert (J : In e (preds_of (d_preds st) u)) by (apply HES, (Permutation_in _ PO); left; reflexivity). destruct (pred_tight S P st u e I J Fu) as (H1 & H2 & H3 & H4 & H5).
      assert (TO' := tail_step S P st u L e I NZ Vu Fu TO J). pose proof TO' as (T1 & _).
      assert (ES : sdiff (sof (map source [e])) (sunion D [u]) = [source e]).
      { change (sof (map source [e])) with [source e]. unfold sdiff. cbn [filter]. destruct (mem (source e) (sunion D [u])) eqn:M; [|reflexivity]. exfalso. apply mem_spec, In_sunion in M. inversion T1 as [|? ? N1 _]. apply N1. rewrite HD in M. cbn in *. tauto. }
      rewrite ES. destruct (IH (source e) (e :: acc) (sunion K [e]) (sunion D [u]) (u :: L)) as (p & K' & Q1 & Q2 & Q3 & Q4 & Q5); [exact H1|exact H5|constructor; [exact H2|rewrite H3; exact Wa]|exact TO'|cbn; lia| | | |].
      + intros e'. rewrite In_sunion, HK. cbn. tauto.
      + apply NoDup_sunion, NK.
      + intros x. rewrite In_sunion, HD. cbn. tauto.
      + exists p, K'. split; [exact Q1|]. split; [exact Q2|]. split; [exact Q3|]. split; [|exact Q5]. rewrite Q4. cbn [weight fold_right]. fold (weight w acc). lia.
  Qed.

  (** ** make_shortest_paths_dag *)
  Inductive back (preds : dict nat (list E)) (t : nat) : nat -> Prop :=
  | back_t : back preds t t
  | back_e v e : back preds t v -> In e (preds_of preds v) -> back preds t (source e).
  Lemma dag_spec preds ord t W : In t W -> (forall v e, In v W -> In e (preds_of preds v) -> In (source e) W) -> forall fuel K T D,
    NoDup T -> NoDup D -> (forall v, In v T -> ~ In v D) -> (forall v, In v T \/ In v D -> back preds t v /\ In v W) -> In t T \/ In t D ->
    (forall e, In e K <-> exists v, In v D /\ In e (preds_of preds v)) -> NoDup K -> (forall v e, In v D -> In e (preds_of preds v) -> In (source e) T \/ In (source e) D) ->
    (length W <= fuel + length D)%nat ->
    exists K', dag_loop source fuel preds false ord K T D = Some K' /\ NoDup K' /\ forall e, In e K' <-> exists v, back preds t v /\ In e (preds_of preds v).
  Proof.
    intros TW CW. induction fuel as [|fuel IH]; intros K T D NT ND DJ SUB IT HK NK CL F; cbn [dag_loop]; (destruct T as [|t0 T0] eqn:ET;
      [exists K; split; [reflexivity|]; split; [exact NK|]; intros e; rewrite HK; assert (BD : forall v, back preds t v -> In v D) by (induction 1 as [|v e' _ IHb Ie']; [destruct IT as [[]|IT]; exact IT|destruct (CL v e' IHb Ie') as [[]|J]; exact J]);
       split; [intros (v & J1 & J2); exists v; split; [apply SUB; auto|exact J2]|intros (v & J1 & J2); exists v; auto]|]).
    - exfalso. assert (L : (length (t0 :: D) <= length W)%nat). { apply NoDup_incl_length; [constructor; [apply DJ; left; reflexivity|exact ND]|]. intros x [<-|J]; apply SUB; [left; left; reflexivity|auto]. } cbn in L. lia.
    - rewrite <- ET in *. set (es := sof (flat_map (preds_of preds) T)).
      assert (HES : forall e, In e es <-> exists v, In v T /\ In e (preds_of preds v)) by (intros e; unfold es; rewrite In_sof, in_flat_map; reflexivity).
      apply IH.
      + apply NoDup_filter, NoDup_sof.
      + apply NoDup_sunion, ND.
      + intros v J1 J2. apply In_sdiff in J1. tauto.
      + intros v [J|J].
        * apply In_sdiff in J. destruct J as [J _]. apply (proj1 (In_sof _ _)) in J. apply in_map_iff in J. destruct J as (e & <- & J). apply HES in J. destruct J as (x & J1 & J2). destruct (SUB x (or_introl J1)) as [B1 B2].
          split; [apply (back_e preds t x e B1 J2)|apply (CW x e B2 J2)].
        * apply In_sunion in J. apply SUB. tauto.
      + right. apply In_sunion. tauto.
      + intros e. rewrite In_sunion, HK, HES. split.
        * intros [(v & J1 & J2)|(v & J1 & J2)]; exists v; rewrite In_sunion; auto.
        * intros (v & J1 & J2). apply In_sunion in J1. destruct J1; [left|right]; eauto.
      + apply NoDup_sunion, NK.
      + intros v e J1 J2. rewrite In_sunion. destruct (in_dec Nat.eq_dec (source e) (sunion D T)) as [J|J]; [right; apply In_sunion, J|]. apply In_sunion in J1. destruct J1 as [J1|J1].
        * destruct (CL v e J1 J2); tauto.
        * left. apply In_sdiff. split; [|exact J]. apply In_sof, in_map, HES. eauto.
      + assert (L : (length (t0 :: D) <= length (sunion D T))%nat); [|cbn in L; lia]. apply NoDup_incl_length; [constructor; [apply DJ; rewrite ET; left; reflexivity|exact ND]|]. intros x [<-|J]; apply In_sunion; [right; rewrite ET; left; reflexivity|auto].
  Qed.
  (** the vertices reached backwards are on shortest paths *)
  Lemma back_walk S P st t : inv S P st -> In t V -> dv st t < infty -> forall v, back (d_preds st) t v ->
    In v V /\ dv st v < infty /\ exists q, walk_of out_edges target v q t /\ dv st v + weight w q = dv st t.
  Proof.
    intros I Vt Ft. induction 1 as [|v e _ (Vv & Fv & q & Wq & Eq) J]; [split; [exact Vt|]; split; [exact Ft|]; exists []; split; [constructor|cbn; lia]|].
    destruct (pred_tight S P st v e I J Fv) as (H1 & H2 & H3 & H4 & H5). split; [exact H1|]. split; [exact H5|]. exists (e :: q). split; [constructor; [exact H2|rewrite H3; exact Wq]|]. cbn [weight fold_right]. fold (weight w q). lia.
  Qed.
  Lemma dag_edges S P st t e : inv S P st -> full S P -> hp_data (d_heap st) = [] -> In t V -> dv st t < infty ->
    (exists v, back (d_preds st) t v /\ In e (preds_of (d_preds st) v)) <-> exists p, shortest out_edges target w s p t /\ In e p.
  Proof.
    intros I FULL HE Vt Ft. split.
    - intros (v & B & J). destruct (back_walk S P st t I Vt Ft v B) as (Vv & Fv & q & Wq & Eq). destruct (pred_tight S P st v e I J Fv) as (H1 & H2 & H3 & H4 & H5). destruct (i_walk _ _ _ I _ H1 H5) as (p & Wp & Ep).
      exists (p ++ e :: q). split; [|apply in_app_iff; cbn; auto]. split; [apply (walk_app s p (source e)); [exact Wp|]; constructor; [exact H2|rewrite H3; exact Wq]|].
      intros p' Wp'. destruct (final_lower S P st I FULL HE t p' Wp') as [L _]. rewrite weight_app. cbn [weight fold_right]. fold (weight w p) (weight w q). lia.
    - intros (p & [Wp Mp] & J).
      assert (SPLIT : forall p1 p2 u, walk_of out_edges target u (p1 ++ p2) t -> exists x, walk_of out_edges target u p1 x /\ walk_of out_edges target x p2 t).
      { clear. induction p1 as [|a p1 IH]; intros p2 u W; cbn in W; [exists u; split; [constructor|exact W]|]. inversion W as [|? ? ? ? Ia W']; subst. destruct (IH p2 _ W') as (x & X1 & X2). exists x. split; [constructor; assumption|exact X2]. }
      destruct (final_distance S P st I FULL HE t Vt) as [[_ (p0 & [Wp0 _] & Ep0)]|[? _]]; [|lia]. pose proof (Mp p0 Wp0) as LT. pose proof (proj1 (final_lower S P st I FULL HE t p Wp)) as GT.
      assert (PRE : forall p1 p2 x, p = p1 ++ p2 -> walk_of out_edges target s p1 x -> walk_of out_edges target x p2 t -> In x V /\ dv st x = weight w p1 /\ dv st x < infty).
      { intros p1 p2 x -> W1 W2. destruct (final_lower S P st I FULL HE x p1 W1) as [L1 Vx]. split; [exact Vx|]. rewrite weight_app in *.
        assert (0 <= weight w p2). { clear -W2 Vx H_edges. induction W2 as [|a e0 q v Ie _ IH]; cbn [weight fold_right]; [lia|]. destruct (H_edges a e0 Vx Ie) as (_ & Vt' & _ & Wn). specialize (IH Vt'). fold (weight w q). lia. }
        assert (Fx : dv st x < infty) by lia. split; [|exact Fx]. destruct (i_walk _ _ _ I x Vx Fx) as (q & Wq & Eq). specialize (Mp (q ++ p2) (walk_app s q x p2 t Wq W2)). rewrite weight_app in Mp. lia. }
      assert (TIGHT : forall p1 e0 p2 x, p = p1 ++ e0 :: p2 -> walk_of out_edges target s p1 x -> walk_of out_edges target x (e0 :: p2) t -> source e0 = x /\ In e0 (preds_of (d_preds st) (target e0))).
      { intros p1 e0 p2 x Ep W1 W2. destruct (PRE p1 (e0 :: p2) x Ep W1 W2) as (Vx & Dx & Fx). inversion W2 as [|? ? ? ? Ie W3]; subst. destruct (H_edges x e0 Vx Ie) as (Es & Vt' & _ & Wn). split; [exact Es|].
        destruct (PRE (p1 ++ [e0]) p2 (target e0)) as (_ & Dy & Fy); [rewrite <- app_assoc; reflexivity|apply (walk_app s p1 x [e0]); [exact W1|constructor; [exact Ie|constructor]]|exact W3|].
        rewrite weight_app in Dy. change (weight w [e0]) with (w e0 + 0) in Dy. pose proof (i_top _ _ _ I x Vx). apply (i_preds _ _ _ I). split; [apply (FULL x); [apply (final_S S P st I HE); auto|exact Ie]|]. split; [reflexivity|]. rewrite Es. destruct (comb_spec (dv st x) (w e0) Fx) as [K|[K1 K2]]; lia. }
      assert (BACK : forall p2 p1 x, p = p1 ++ p2 -> walk_of out_edges target s p1 x -> walk_of out_edges target x p2 t -> back (d_preds st) t x).
      { induction p2 as [|e0 p2 IH]; intros p1 x Ep W1 W2; [inversion W2; subst; constructor|]. destruct (TIGHT p1 e0 p2 x Ep W1 W2) as [Es J0]. inversion W2 as [|? ? ? ? Ie W3]; subst.
        apply (back_e _ _ (target e0)); [|exact J0]. apply (IH (p1 ++ [e0])); [rewrite <- app_assoc; reflexivity|apply (walk_app s p1 (source e0) [e0]); [exact W1|constructor; [exact Ie|constructor]]|exact W3]. }
      destruct (in_split _ _ J) as (p1 & p2 & Ep). rewrite Ep in Wp. destruct (SPLIT _ _ _ Wp) as (x & W1 & W2). destruct (TIGHT p1 e p2 x Ep W1 W2) as [Es J0]. exists (target e). split; [|exact J0].
      inversion W2 as [|? ? ? ? Ie W3]; subst. apply (BACK p2 (p1 ++ [e])); [rewrite <- app_assoc; reflexivity|apply (walk_app s p1 (source e) [e]); [exact W1|constructor; [exact Ie|constructor]]|exact W3].
  Qed.
End P.
