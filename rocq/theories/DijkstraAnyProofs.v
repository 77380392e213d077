(** dijkstra_shortest_paths with any weights, comparison, combination, visitor and initial maps. *)
From Verif Require Import Graph Search Heap HeapProofs Dijkstra DijkstraSpec DijkstraAnySpec Base BaseProofs.

(** heapq permutes the lists, whatever the comparison *)
Section Perm.
  Context {X : Type}.
  Variable lt : X -> X -> bool.
  Lemma siftdown_loop_perm x : forall fuel d s pos, pos < length d -> Permutation (siftdown_loop lt fuel d s pos x) (upd d pos x).
  Proof.
    induction fuel as [|fuel IH]; intros d s pos L; cbn [siftdown_loop]; [reflexivity|].
    destruct (Nat.ltb_spec s pos) as [Ls|]; [|reflexivity].
    assert (PL : (pos - 1) / 2 < pos) by (apply Nat.div_lt_upper_bound; lia).
    destruct (nth_error d ((pos - 1) / 2)) as [parent|] eqn:En; [|apply nth_error_None in En; lia].
    destruct (lt x parent); [|reflexivity]. rewrite IH by (rewrite length_upd; lia). apply perm_move; [lia|exact En|lia].
  Qed.
  Lemma siftdown_perm d s pos : Permutation (siftdown lt d s pos) d.
  Proof.
    unfold siftdown. destruct (nth_error d pos) as [x|] eqn:En; [|reflexivity].
    rewrite siftdown_loop_perm by (eapply nth_lt; exact En). rewrite (upd_same _ _ _ En). reflexivity.
  Qed.
  Lemma siftup_loop_perm x : forall fuel d pos, pos < length d ->
    let '(d', p) := siftup_loop lt fuel d pos in p < length d' /\ Permutation (upd d' p x) (upd d pos x).
  Proof.
    induction fuel as [|fuel IH]; intros d pos L; cbn [siftup_loop]; [split; [exact L|reflexivity]|].
    destruct (Nat.ltb_spec (2 * pos + 1) (length d)) as [LL|]; [|split; [exact L|reflexivity]].
    destruct (nth_error d (2 * pos + 1)) as [il|] eqn:El; [|split; [exact L|reflexivity]].
    assert (G : forall j it, nth_error d j = Some it -> pos <> j -> let '(d', p) := siftup_loop lt fuel (upd d pos it) j in
      p < length d' /\ Permutation (upd d' p x) (upd d pos x)).
    { intros j it Ej N. assert (Lj : j < length (upd d pos it)) by (rewrite length_upd; eapply nth_lt; exact Ej).
      specialize (IH (upd d pos it) j Lj). destruct (siftup_loop lt fuel (upd d pos it) j) as [d' p]. destruct IH as [P Q].
      split; [exact P|]. rewrite Q. apply perm_move; [exact L|exact Ej|exact N]. }
    destruct (nth_error d (2 * pos + 1 + 1)) as [ir|] eqn:Er; [destruct (negb (lt il ir))|]; apply G; auto; lia.
  Qed.
  Lemma siftup_perm d pos : Permutation (siftup lt d pos) d.
  Proof.
    unfold siftup. destruct (nth_error d pos) as [x|] eqn:En; [|reflexivity].
    pose proof (siftup_loop_perm x (length d) d pos (nth_lt _ _ _ En)) as H. destruct (siftup_loop lt (length d) d pos) as [d' p].
    destruct H as [_ H]. rewrite siftdown_perm, H, (upd_same _ _ _ En). reflexivity.
  Qed.
  Lemma heapify_perm d : Permutation (heapify lt d) d.
  Proof.
    unfold heapify. generalize (rev (seq 0 (length d / 2))). intros l. revert d. induction l as [|i l IH]; intros d; cbn; [reflexivity|].
    rewrite IH. apply siftup_perm.
  Qed.
  Lemma heappush_perm d x : Permutation (heappush lt d x) (x :: d).
  Proof. unfold heappush. rewrite siftdown_perm. symmetry. apply Permutation_cons_append. Qed.
  Lemma heappop_perm d : d <> [] -> exists m d', heappop lt d = (d', Ok m) /\ Permutation d (m :: d').
  Proof.
    intros N. unfold heappop. destruct (rev d) as [|last r] eqn:R; [apply (f_equal (@rev X)) in R; rewrite rev_involutive in R; contradiction|].
    apply (f_equal (@rev X)) in R. rewrite rev_involutive in R. cbn in R. subst d. destruct (rev r) as [|m l]; [exists last, []; split; reflexivity|].
    exists m. eexists. split; [reflexivity|]. rewrite siftup_perm. cbn. constructor. symmetry. apply Permutation_cons_append.
  Qed.
End Perm.

Section Elems.
  Context {X K : Type} {EX : EqDec X}.
  Variables (ks : keys K) (to : X -> K).
  Definition elems (h : heap X K) : list X := map snd (hp_data h).
  Lemma elems_push h x : Permutation (elems (heap_push ks to h x)) (x :: elems h).
  Proof. unfold elems, heap_push. cbn [hp_data]. rewrite heappush_perm. reflexivity. Qed.
  Lemma elems_init x : Permutation (elems (heap_init ks to [x])) [x].
  Proof. unfold elems, heap_init. cbn [hp_data]. rewrite heapify_perm. reflexivity. Qed.
  Lemma elems_decrease h x : Permutation (elems (heap_decrease_key ks to h x)) (elems h).
  Proof.
    unfold elems, heap_decrease_key. cbn [hp_data]. generalize (length (hp_data h)) at 1. intros n. generalize 0. generalize (hp_data h). clear h.
    induction n as [|n IH]; intros d i; cbn [decrease_loop]; [reflexivity|]. destruct (nth_error d i) as [[[k j] y]|] eqn:En; [|reflexivity].
    destruct (eqb_spec x y) as [->|]; [|apply IH]. rewrite IH, heapify_perm. pose proof (perm_upd d i _ (to y, j, y) En) as P.
    apply (Permutation_map snd) in P. cbn in P. apply Permutation_cons_inv in P. symmetry. exact P.
  Qed.
  Lemma elems_pop h : hp_data h <> [] -> exists x h', heap_pop ks h = (h', Ok x) /\ Permutation (elems h) (x :: elems h').
  Proof.
    intros N. unfold heap_pop, elems. destruct (heappop_perm (item_lt ks) (hp_data h) N) as ([[k i] x] & d' & E & P). rewrite E.
    exists x. eexists. split; [reflexivity|]. cbn [hp_data]. apply (Permutation_map snd) in P. exact P.
  Qed.
End Elems.

Section A.
  Context {E D : Type} {EE : EqDec E} {ED : EqDec D} {LD : Distance D}.
  Variables (V : list nat) (out_edges : nat -> list E) (target : E -> nat) (pmap_eweight : E -> res D).
  Variable compare_arg : option (D -> D -> bool).
  Variables (combine : D -> D -> D) (zero infty : D).
  Variable raises : devent E -> bool.
  Variables (s : nat) (dist0 : dict nat D) (preds0 : dict nat (list E)).
  Local Notation walk := (walk_of out_edges target).
  Local Notation first := (first_distance V zero infty dist0 s).
  Local Notation edge_step := (edge_step target pmap_eweight compare_arg combine raises).
  Local Notation iteration := (iteration out_edges target pmap_eweight compare_arg combine raises).
  Local Notation dijkstra_loop := (dijkstra_loop out_edges target pmap_eweight compare_arg combine raises).

  Lemma examined_app (l l' : list (devent E)) : examined (l ++ l') = examined l ++ examined l'.
  Proof. apply flat_map_app. Qed.
  Lemma discovered_app (l l' : list (devent E)) : discovered (l ++ l') = discovered l ++ discovered l'.
  Proof. apply flat_map_app. Qed.
  Lemma color_of_dset c v x u : color_of (dset c v x) u = if u =? v then x else color_of c u.
  Proof. unfold color_of. rewrite dget_dset. destruct (eqb_spec u v) as [->|N]; [rewrite Nat.eqb_refl; reflexivity|]. destruct (Nat.eqb_spec u v); [contradiction|reflexivity]. Qed.
  Lemma color_read_spec c v : fst (color_read c v) = color_of c v /\ forall u, color_of (snd (color_read c v)) u = color_of c u.
  Proof.
    unfold color_read. destruct (dget c v) as [x|] eqn:G; cbn [fst snd].
    - split; [unfold color_of; rewrite G; reflexivity|reflexivity].
    - split; [unfold color_of; rewrite G; reflexivity|]. intros u. rewrite color_of_dset. destruct (Nat.eqb_spec u v) as [->|]; [unfold color_of; rewrite G; reflexivity|reflexivity].
  Qed.
  Lemma walk_snoc u p v e : walk u p v -> In e (out_edges v) -> walk u (p ++ [e]) (target e).
  Proof. induction 1 as [|u e' p v I W IH]; intros Ie; cbn; [repeat constructor; exact Ie|]. constructor; [exact I|auto]. Qed.

  (** [d] is the cost of a walk from s to v *)
  Definition cost_to (v : nat) (d : D) : Prop := exists d0 p, first s = Some d0 /\ walk s p v /\ costs pmap_eweight combine d0 p d.
  Definition ok_edge (e : E) : Prop := first (target e) <> None /\ exists x, pmap_eweight e = Ok x.

  (** a loop on s improves the first distance of s *)
  Definition better_loop : Prop := exists e x d0, In e (out_edges s) /\ target e = s /\ first s = Some d0 /\ pmap_eweight e = Ok x /\ compare compare_arg (combine d0 x) d0 = true.
  Record inv (st : dstate E D) : Prop := {
    i_keys : forall v, dget (d_dist st) v = None <-> first v = None;
    i_col : forall v, In v (discovered (d_log st)) -> color_of (d_color st) v <> WHITE;
    i_nd : NoDup (discovered (d_log st));
    i_dk : forall v, In v (discovered (d_log st)) -> first v <> None;
    i_perm : Permutation (elems (d_heap st) ++ examined (d_log st)) (s :: discovered (d_log st));
    i_walk : forall v d, v = s \/ In v (discovered (d_log st)) -> dget (d_dist st) v = Some d -> cost_to v d;
    i_dist : forall v d, dget (d_dist st) v = Some d -> first v = Some d \/ cost_to v d;
    i_preds : forall v e, In e (preds_of (d_preds st) v) -> In e (preds_of preds0 v) \/ target e = v /\ exists u, In u (examined (d_log st)) /\ In e (out_edges u);
    i_white : color_of (d_color st) s = WHITE -> (forall u, In u (examined (d_log st)) -> u = s) /\ dget (d_dist st) s = first s;
    i_loop : In s (discovered (d_log st)) -> better_loop }.

  (** why a call does not end normally *)
  Definition why (st : dstate E D) (o : outcome) : Prop :=
    match o with
    | Done => Forall (fun x => raises x = false) (d_log st)
    | Stopped => exists l x, d_log st = l ++ [x] /\ raises x = true /\ Forall (fun x => raises x = false) l
    | Error x => Forall (fun x => raises x = false) (d_log st) /\ exists u e l, d_log st = l ++ [DExamineEdge e] /\ In u (examined l) /\ In e (out_edges u) /\
        (first (target e) = None /\ x = KeyError \/ first (target e) <> None /\ pmap_eweight e = Raise x)
    end.

  Definition plain (x : devent E) : Prop := match x with DExamine _ | DDiscover _ => False | _ => True end.
  Lemma plain_log l x : plain x -> examined (l ++ [x]) = examined l /\ discovered (l ++ [x]) = discovered l.
  Proof. intros P. rewrite examined_app, discovered_app. destruct x; try destruct P; cbn; rewrite !app_nil_r; auto. Qed.
  Lemma call_why x (st : dstate E D) : why st Done -> why (fst (call raises x st)) (snd (call raises x st)).
  Proof.
    intros W. cbn [call fst snd]. destruct (raises x) eqn:R; cbn [why d_log].
    - exists (d_log st), x. auto.
    - apply Forall_app. split; [exact W|]. repeat constructor. exact R.
  Qed.
  Lemma call_inv x (st : dstate E D) : plain x -> inv st -> inv (fst (call raises x st)).
  Proof.
    intros P [? ? ? ? ? ? ? ? ? ?]. destruct (plain_log (d_log st) x P) as [EX DX].
    constructor; cbn [call fst d_dist d_preds d_color d_heap d_log]; rewrite ?EX, ?DX; assumption.
  Qed.
  Lemma call_exam x (st : dstate E D) : plain x -> examined (d_log (fst (call raises x st))) = examined (d_log st).
  Proof. intros P. apply (plain_log (d_log st) x P). Qed.

  Lemma edge_step_inv u w_su e st : inv st -> why st Done -> In u (examined (d_log st)) -> cost_to u w_su -> (color_of (d_color st) s = WHITE -> first s = Some w_su) -> In e (out_edges u) ->
    let '(st', o) := edge_step w_su e st in
    inv st' /\ why st' o /\ examined (d_log st') = examined (d_log st) /\ (color_of (d_color st') s = WHITE -> color_of (d_color st) s = WHITE) /\ (o = Done -> ok_edge e).
  Proof.
    intros I W X C HW Ie. unfold Dijkstra.edge_step. pose proof (call_inv (DExamineEdge e) st Logic.I I) as I1. pose proof (call_why (DExamineEdge e) st W) as W1.
    pose proof (call_exam (DExamineEdge e) st Logic.I) as X1. assert (Y1 : d_color (fst (call raises (DExamineEdge e) st)) = d_color st) by reflexivity.
    destruct (call raises (DExamineEdge e) st) as [st1 o1] eqn:C1. cbn [fst snd] in *. unfold thn at 1. destruct o1; [|split; [exact I1|]; split; [exact W1|]; split; [exact X1|split; [rewrite Y1; auto|discriminate]]..].
    assert (L1 : d_log st1 = d_log st ++ [DExamineEdge e]) by (unfold call in C1; injection C1 as <- _; reflexivity).
    destruct (dget (d_dist st1) (target e)) as [w_sv|] eqn:Gv.
    2:{ split; [exact I1|]. split; [|split; [exact X1|split; [rewrite Y1; auto|discriminate]]]. split; [exact W1|]. exists u, e, (d_log st). split; [exact L1|]. split; [exact X|]. split; [exact Ie|].
        left. split; [apply (i_keys _ I1), Gv|reflexivity]. }
    assert (K : first (target e) <> None) by (intros Z; apply (i_keys _ I1) in Z; congruence).
    destruct (pmap_eweight e) as [w_uv|x] eqn:We.
    2:{ split; [exact I1|]. split; [|split; [exact X1|split; [rewrite Y1; auto|discriminate]]]. split; [exact W1|]. exists u, e, (d_log st). auto 10. }
    assert (OK : ok_edge e) by (split; [exact K|eauto]).
    assert (CT : cost_to (target e) (combine w_su w_uv)).
    { destruct C as (d0 & p & F & Wp & Cp). exists d0, (p ++ [e]). split; [exact F|]. split; [apply (walk_snoc s p u e Wp Ie)|]. apply costs_snoc; assumption. }
    assert (PX : target e = target e /\ exists u, In u (examined (d_log st1)) /\ In e (out_edges u)) by (split; [reflexivity|]; exists u; rewrite X1; auto).
    clear C1 L1. rename st1 into st1'. set (v := target e) in *. set (d' := combine w_su w_uv) in *. destruct (compare compare_arg d' w_sv) eqn:CMP.
    - destruct (color_read (d_color st1') v) as [c colors] eqn:CR. pose proof (color_read_spec (d_color st1') v) as [CR1 CR2]. rewrite CR in CR1, CR2. cbn [fst snd] in CR1, CR2.
      set (dist' := dset (d_dist st1') v d'). set (preds' := dset (d_preds st1') v [e]).
      assert (H : forall h colors' log', 
        (forall x, In x (discovered log') -> color_of colors' x <> WHITE) -> NoDup (discovered log') -> (forall x, In x (discovered log') -> x = v \/ In x (discovered (d_log st1'))) ->
        examined log' = examined (d_log st1') ->
        Permutation (elems h ++ examined (d_log st1')) (s :: discovered log') -> color_of colors' v <> WHITE -> (forall x, x <> v -> color_of colors' x = color_of (d_color st1') x) ->
        (In v (discovered log') -> ~ In v (discovered (d_log st1')) -> color_of (d_color st1') v = WHITE) -> inv (mkD dist' preds' colors' h log')).
      { intros h colors' log' H1 H2 H3 H4 H5 H6 H7 H8. constructor; cbn [d_dist d_preds d_color d_heap d_log].
        - intros x. unfold dist'. rewrite dget_dset. destruct (eqb_spec x v) as [->|]; [split; [discriminate|intros; contradiction]|apply (i_keys _ I1)].
        - exact H1.
        - exact H2.
        - intros x Ix. destruct (H3 x Ix) as [->|Ix']; [exact K|apply (i_dk _ I1), Ix'].
        - rewrite H4. exact H5.
        - intros x d Hx. unfold dist'. rewrite dget_dset. destruct (eqb_spec x v) as [->|N]; [intros [= <-]; exact CT|]. apply (i_walk _ I1).
          destruct Hx as [Hx|Hx]; [auto|]. destruct (H3 x Hx) as [->|Hx']; [contradiction|auto].
        - intros x d. unfold dist'. rewrite dget_dset. destruct (eqb_spec x v) as [->|N]; [intros [= <-]; right; exact CT|apply (i_dist _ I1)].
        - intros x f. unfold preds', preds_of. rewrite dget_dset. destruct (eqb_spec x v) as [->|N]; [intros [<-|[]]; right; rewrite H4; exact PX|rewrite H4; apply (i_preds _ I1)].
        - intros Wh. assert (N : s <> v) by congruence. rewrite H7 in Wh by exact N. destruct (i_white _ I1 Wh) as [Z1 Z2]. rewrite H4. split; [exact Z1|].
          unfold dist'. rewrite dget_dset. destruct (eqb_spec s v); [contradiction|exact Z2].
        - intros Is. destruct (in_dec Nat.eq_dec s (discovered (d_log st1'))) as [Id|Nd]; [apply (i_loop _ I1), Id|]. destruct (H3 s Is) as [Ev|Id]; [|contradiction].
          rewrite Ev in Is, Nd. specialize (H8 Is Nd). rewrite <- Ev in H8. destruct (i_white _ I1 H8) as [Z1 Z2].
          assert (u = s) by (apply Z1; rewrite X1; exact X). subst u. rewrite Y1 in H8. specialize (HW H8). exists e, w_uv, w_su. split; [exact Ie|]. split; [symmetry; exact Ev|].
          split; [exact HW|]. split; [exact We|]. rewrite <- Ev in Gv. rewrite Z2, HW in Gv. injection Gv as ->. exact CMP. }
      assert (R : forall st2, inv st2 -> why st2 Done -> examined (d_log st2) = examined (d_log st) -> (color_of (d_color st2) s = WHITE -> color_of (d_color st) s = WHITE) ->
        let '(st', o) := call raises (DRelaxed e) st2 in inv st' /\ why st' o /\ examined (d_log st') = examined (d_log st) /\ (color_of (d_color st') s = WHITE -> color_of (d_color st) s = WHITE) /\ (o = Done -> ok_edge e)).
      { intros st2 I2 W2 X2 Y2. assert (A4 : d_color (fst (call raises (DRelaxed e) st2)) = d_color st2) by reflexivity. pose proof (call_inv (DRelaxed e) st2 Logic.I I2) as A1. pose proof (call_why (DRelaxed e) st2 W2) as A2. pose proof (call_exam (DRelaxed e) st2 Logic.I) as A3.
        destruct (call raises (DRelaxed e) st2) as [st' o]. cbn [fst snd] in *. rewrite A3, X2, A4. auto. }
      destruct c.
      + set (st2 := mkD dist' preds' (dset colors v GRAY) (heap_push (ks compare_arg) (key_of dist') (d_heap st1') v) (d_log st1')).
        assert (I2 : inv (fst (call raises (DDiscover v) st2))).
        { cbn [call fst st2 d_dist d_preds d_color d_heap d_log]. assert (NV : ~ In v (discovered (d_log st1'))) by (intros Z; apply (i_col _ I1) in Z; congruence).
          apply H; rewrite ?discovered_app; cbn [discovered flat_map app].
          - intros x Ix. rewrite color_of_dset. destruct (Nat.eqb_spec x v) as [->|N]; [discriminate|]. rewrite CR2. apply in_app_or in Ix. destruct Ix as [Ix|[Ix|[]]]; [apply (i_col _ I1), Ix|congruence].
          - apply Permutation_NoDup with (l := v :: discovered (d_log st1')); [apply Permutation_cons_append|]. constructor; [exact NV|apply (i_nd _ I1)].
          - intros x Ix. apply in_app_or in Ix. destruct Ix as [Ix|[Ix|[]]]; auto.
          - rewrite examined_app. cbn. rewrite app_nil_r. reflexivity.
          - rewrite elems_push. cbn [app]. rewrite (i_perm _ I1). rewrite perm_swap. constructor. apply Permutation_cons_append.
          - rewrite color_of_dset, Nat.eqb_refl. discriminate.
          - intros x N. rewrite color_of_dset. destruct (Nat.eqb_spec x v); [contradiction|apply CR2].
          - intros _ _. symmetry. exact CR1. }
        pose proof (call_why (DDiscover v) st2 W1) as W2.
        assert (X2 : examined (d_log (fst (call raises (DDiscover v) st2))) = examined (d_log st)).
        { cbn [call fst st2 d_log]. rewrite examined_app. cbn. rewrite app_nil_r. exact X1. }
        assert (Y2 : color_of (d_color (fst (call raises (DDiscover v) st2))) s = WHITE -> color_of (d_color st) s = WHITE).
        { cbn [call fst st2 d_color]. rewrite color_of_dset. destruct (s =? v); [discriminate|]. rewrite CR2, Y1. auto. }
        destruct (call raises (DDiscover v) st2) as [st3 o3]. cbn [fst snd] in *. unfold thn. destruct o3; [apply R; assumption|split; [exact I2|]; split; [exact W2|]; split; [exact X2|split; [exact Y2|discriminate]]..].
      + unfold thn. apply R; [|exact W1|exact X1|cbn [d_color]; rewrite CR2, Y1; auto]. apply H; try reflexivity; auto.
        * intros x Ix. rewrite CR2. apply (i_col _ I1), Ix.
        * apply (i_nd _ I1).
        * rewrite elems_decrease. apply (i_perm _ I1).
        * rewrite CR2, <- CR1. discriminate.
        * intros Z1 Z2. contradiction.
      + unfold thn. apply R; [|exact W1|exact X1|cbn [d_color]; rewrite CR2, Y1; auto]. apply H; try reflexivity; auto.
        * intros x Ix. rewrite CR2. apply (i_col _ I1), Ix.
        * apply (i_nd _ I1).
        * apply (i_perm _ I1).
        * rewrite CR2, <- CR1. discriminate.
        * intros Z1 Z2. contradiction.
    - assert (R : forall x st2, plain x -> inv st2 -> why st2 Done -> examined (d_log st2) = examined (d_log st) -> d_color st2 = d_color st ->
        let '(st', o) := call raises x st2 in inv st' /\ why st' o /\ examined (d_log st') = examined (d_log st) /\ (color_of (d_color st') s = WHITE -> color_of (d_color st) s = WHITE) /\ (o = Done -> ok_edge e)).
      { intros x st2 PL I2 W2 X2 Y2. assert (A4 : d_color (fst (call raises x st2)) = d_color st2) by reflexivity. pose proof (call_inv x st2 PL I2) as A1. pose proof (call_why x st2 W2) as A2. pose proof (call_exam x st2 PL) as A3.
        destruct (call raises x st2) as [st' o]. cbn [fst snd] in *. rewrite A3, X2, A4, Y2. auto. }
      destruct (eqb d' w_sv).
      + apply R; [exact Logic.I| |exact W1|exact X1|exact Y1]. destruct I1 as [J1 J2 J3 J4 J5 J6 J7 J8 J9 J10]. constructor; cbn [d_dist d_preds d_color d_heap d_log]; auto.
        intros x f. unfold preds_of at 1. rewrite dget_dset. destruct (eqb_spec x v) as [->|N]; [|apply J8]. rewrite In_sadd. intros [->|If]; [right; exact PX|apply J8, If].
      + apply R; auto. exact Logic.I.
  Qed.

  Lemma each_inv u w_su l : forall st, inv st -> why st Done -> In u (examined (d_log st)) -> cost_to u w_su -> (color_of (d_color st) s = WHITE -> first s = Some w_su) -> (forall e, In e l -> In e (out_edges u)) ->
    let '(st', o) := each (edge_step w_su) l st in
    inv st' /\ why st' o /\ examined (d_log st') = examined (d_log st) /\ (color_of (d_color st') s = WHITE -> color_of (d_color st) s = WHITE) /\ (o = Done -> forall e, In e l -> ok_edge e).
  Proof.
    induction l as [|e l IH]; intros st I W X C HW S; cbn [each]; [split; [exact I|]; split; [exact W|]; split; [reflexivity|]; split; [auto|]; intros _ e []|].
    pose proof (edge_step_inv u w_su e st I W X C HW (S e (or_introl eq_refl))) as H. destruct (edge_step w_su e st) as [st1 o1]. destruct H as (I1 & W1 & X1 & Y1 & O1).
    unfold thn. destruct o1; [|split; [exact I1|]; split; [exact W1|]; split; [exact X1|split; [exact Y1|discriminate]]..].
    assert (X2 : In u (examined (d_log st1))) by (rewrite X1; exact X).
    specialize (IH st1 I1 W1 X2 C (fun Z => HW (Y1 Z)) (fun e Ie => S e (or_intror Ie))). destruct (each (edge_step w_su) l st1) as [st2 o2]. destruct IH as (I2 & W2 & X3 & Y2 & O2).
    split; [exact I2|]. split; [exact W2|]. split; [congruence|]. split; [auto|]. intros Z e' [<-|Ie]; [apply O1; reflexivity|apply O2; assumption].
  Qed.

  Definition started (st : dstate E D) : Prop := color_of (d_color st) s = WHITE -> examined (d_log st) = [] /\ discovered (d_log st) = [].
  Lemma iteration_inv st : inv st -> started st -> why st Done -> first s <> None -> hp_data (d_heap st) <> [] ->
    let '(st', o) := iteration st in
    inv st' /\ (o = Done -> started st') /\ why st' o /\ exists u, examined (d_log st') = examined (d_log st) ++ [u] /\ (o = Done -> forall e, In e (out_edges u) -> ok_edge e).
  Proof.
    intros I SW W Fs N. unfold Dijkstra.iteration. destruct (elems_pop (ks compare_arg) (d_heap st) N) as (u & h' & E1 & P). rewrite E1. cbn [d_dist d_preds d_color d_heap d_log].
    assert (Hu : u = s \/ In u (discovered (d_log st))).
    { assert (In u (s :: discovered (d_log st))) as [<-|Z]; [|auto|auto]. apply (Permutation_in _ (i_perm _ I)). apply in_or_app. left. apply (Permutation_in _ (Permutation_sym P)). left. reflexivity. }
    assert (Ku : first u <> None) by (destruct Hu as [->|Hu]; [exact Fs|apply (i_dk _ I), Hu]).
    destruct (dget (d_dist st) u) as [w_su|] eqn:Gu; [|apply (i_keys _ I) in Gu; contradiction].
    assert (US : color_of (d_color st) s = WHITE -> u = s) by (intros Z; destruct (SW Z) as [_ Z2]; rewrite Z2 in Hu; destruct Hu as [Hu|[]]; exact Hu).
    assert (HW : color_of (d_color st) s = WHITE -> first s = Some w_su) by (intros Z; rewrite <- (proj2 (i_white _ I Z)), <- (US Z); exact Gu).
    pose proof (i_walk _ I u w_su Hu Gu) as C. set (st0 := mkD (d_dist st) (d_preds st) (d_color st) h' (d_log st)).
    assert (I1 : inv (fst (call raises (DExamine u) st0))).
    { destruct I as [J1 J2 J3 J4 J5 J6 J7 J8 J9 J10]. constructor; cbn [call fst st0 d_dist d_preds d_color d_heap d_log];
        rewrite ?discovered_app, ?examined_app; cbn [discovered examined flat_map app]; rewrite ?app_nil_r; auto.
      - rewrite <- J5, P. cbn. rewrite app_assoc. symmetry. apply Permutation_cons_append.
      - intros v e Ie. destruct (J8 v e Ie) as [Z|(Z1 & x & Z2 & Z3)]; [auto|]. right. split; [exact Z1|]. exists x. split; [apply in_or_app; auto|exact Z3].
      - intros Z. destruct (J9 Z) as [Z1 Z2]. split; [|exact Z2]. intros x Ix. apply in_app_or in Ix. destruct Ix as [Ix|[<-|[]]]; [apply Z1, Ix|apply US, Z]. }
    assert (Y1 : d_color (fst (call raises (DExamine u) st0)) = d_color st) by reflexivity.
    pose proof (call_why (DExamine u) st0 W) as W1.
    assert (X1 : examined (d_log (fst (call raises (DExamine u) st0))) = examined (d_log st) ++ [u]) by (cbn [call fst st0 d_log]; rewrite examined_app; reflexivity).
    destruct (call raises (DExamine u) st0) as [st1 o1]. cbn [fst snd] in *. unfold thn at 1. destruct o1; [|split; [exact I1|]; split; [discriminate|]; split; [exact W1|]; exists u; split; [exact X1|discriminate]..].
    assert (X1' : In u (examined (d_log st1))) by (rewrite X1; apply in_or_app; right; left; reflexivity).
    pose proof (each_inv u w_su (out_edges u) st1 I1 W1 X1' C (fun Z => HW (eq_rect _ (fun c => color_of c s = WHITE) Z _ Y1)) (fun e H => H)) as H. destruct (each (edge_step w_su) (out_edges u) st1) as [st2 o2]. destruct H as (I2 & W2 & X2 & Y2 & O2).
    unfold thn. destruct o2; [|split; [exact I2|]; split; [discriminate|]; split; [exact W2|]; exists u; split; [congruence|discriminate]..].
    set (st3 := mkD (d_dist st2) (d_preds st2) (dset (d_color st2) u BLACK) (d_heap st2) (d_log st2)).
    assert (I3 : inv st3).
    { destruct I2 as [J1 J2 J3 J4 J5 J6 J7 J8 J9 J10]. constructor; auto; cbn [st3 d_color]; [intros v Iv|]; rewrite color_of_dset.
      - destruct (Nat.eqb_spec v u); [discriminate|apply J2, Iv].
      - destruct (Nat.eqb_spec s u); [discriminate|exact J9]. }
    assert (S3 : started (fst (call raises (DFinish u) st3))).
    { intros Z. cbn [call fst st3 d_color] in Z. rewrite color_of_dset in Z. destruct (Nat.eqb_spec s u) as [|Nu]; [discriminate|]. apply Y2 in Z. rewrite Y1 in Z. destruct Nu. symmetry. apply US, Z. }
    pose proof (call_inv (DFinish u) st3 Logic.I I3) as A1. pose proof (call_why (DFinish u) st3 W2) as A2. pose proof (call_exam (DFinish u) st3 Logic.I) as A3.
    destruct (call raises (DFinish u) st3) as [st' o]. cbn [fst snd] in *. split; [exact A1|]. split; [intros _; exact S3|]. split; [exact A2|]. exists u. split; [rewrite A3; cbn [st3 d_log]; congruence|]. intros _. apply O2. reflexivity.
  Qed.

  Definition universe : list nat := sof (dkeys dist0 ++ V).
  Lemma first_universe v : first v <> None -> In v universe.
  Proof.
    unfold first_distance, universe. rewrite In_sof, in_app_iff. destruct (mem_reflect v V) as [I|I]; [auto|]. destruct (dget dist0 v) eqn:G; [|contradiction].
    intros _. left. eapply dget_Some_key. exact G.
  Qed.

  Lemma loop_inv fuel : forall st, inv st -> started st -> why st Done -> first s <> None -> (forall u e, In u (examined (d_log st)) -> In e (out_edges u) -> ok_edge e) ->
    length universe + 1 <= fuel + length (examined (d_log st)) ->
    exists st' o, dijkstra_loop fuel st = Some (st', o) /\ inv st' /\ why st' o /\
      (o = Done -> hp_data (d_heap st') = [] /\ forall u e, In u (examined (d_log st')) -> In e (out_edges u) -> ok_edge e).
  Proof.
    induction fuel as [|fuel IH]; intros st I SW W Fs OK L; cbn [Dijkstra.dijkstra_loop]; unfold heap_bool; destruct (Nat.eqb_spec (length (hp_data (d_heap st))) 0) as [Z|Z]; cbn [negb].
    - exists st, Done. apply length_zero_iff_nil in Z. auto 10.
    - exfalso. pose proof (Permutation_length (i_perm _ I)) as PL. rewrite app_length in PL. unfold elems in PL. rewrite map_length in PL. cbn [length] in PL.
      assert (length (discovered (d_log st)) <= length universe) by (apply NoDup_incl_length; [apply (i_nd _ I)|]; intros v Iv; apply first_universe, (i_dk _ I), Iv). unfold item in *. lia.
    - exists st, Done. apply length_zero_iff_nil in Z. auto 10.
    - assert (N : hp_data (d_heap st) <> []) by (intros N; rewrite N in Z; apply Z; reflexivity).
      pose proof (iteration_inv st I SW W Fs N) as H. destruct (iteration st) as [st1 o1]. destruct H as (I1 & SW1 & W1 & u & X1 & O1).
      destruct o1; [|exists st1; eexists; split; [reflexivity|]; split; [exact I1|]; split; [exact W1|discriminate]..].
      apply IH; auto.
      + intros v e. rewrite X1, in_app_iff. intros [Iv|[<-|[]]]; [apply OK, Iv|apply O1; reflexivity].
      + rewrite X1, app_length. cbn. lia.
  Qed.

  Lemma init_inv colors0 : let '(st, o) := initialization V zero infty raises s (mkD dist0 preds0 colors0 (mkHeap [] 0) []) in
    examined (d_log st) = [] /\ discovered (d_log st) = [] /\ d_preds st = preds0 /\ why st o /\ (forall v d, dget (d_dist st) v = Some d -> dget dist0 v = Some d \/ first v = Some d) /\
    (o = Done -> forall v, dget (d_dist st) v = first v) /\ (forall x, o <> Error x) /\ color_of (d_color st) s = WHITE.
  Proof.
    unfold initialization. set (f := fun (u : nat) (st : dstate E D) => call raises (DInit u) _).
    assert (H : forall l pre st, V = pre ++ l -> examined (d_log st) = [] -> discovered (d_log st) = [] -> d_preds st = preds0 -> why st Done -> color_of (d_color st) s = WHITE ->
      (forall v, dget (d_dist st) v = if mem v pre then Some (if v =? s then zero else infty) else dget dist0 v) ->
      let '(st', o) := each f l st in
      examined (d_log st') = [] /\ discovered (d_log st') = [] /\ d_preds st' = preds0 /\ why st' o /\ (forall v d, dget (d_dist st') v = Some d -> dget dist0 v = Some d \/ first v = Some d) /\
      (o = Done -> forall v, dget (d_dist st') v = first v) /\ (forall x, o <> Error x) /\ color_of (d_color st') s = WHITE).
    { induction l as [|u l IH]; intros pre st EV X Dc Pr W CW G; cbn [each].
      - rewrite app_nil_r in EV. subst pre. repeat split; auto; [|discriminate]. intros v d. rewrite G. fold (first v). auto.
      - assert (G1 : forall v, dget (d_dist (fst (f u st))) v = if mem v (pre ++ [u]) then Some (if v =? s then zero else infty) else dget dist0 v).
        { intros v. cbn [f call fst d_dist]. rewrite dget_dset. destruct (eqb_spec v u) as [->|N].
          - rewrite (proj2 (mem_spec u (pre ++ [u]))); [reflexivity|]. apply in_or_app. right. left. reflexivity.
          - rewrite G. assert (M : mem v (pre ++ [u]) = mem v pre); [|rewrite M; reflexivity]. destruct (mem_reflect v pre) as [Iv|Iv].
            + apply mem_spec, in_or_app. auto.
            + apply mem_false. rewrite in_app_iff. intros [Z|[Z|[]]]; congruence. }
        assert (W1 : why (fst (f u st)) (snd (f u st))) by (apply (call_why (DInit u) (mkD _ _ _ _ _)); exact W).
        assert (X1 : examined (d_log (fst (f u st))) = [] /\ discovered (d_log (fst (f u st))) = []).
        { cbn [f call fst d_log]. destruct (plain_log (d_log st) (DInit u) Logic.I) as [-> ->]. auto. }
        assert (CW1 : color_of (d_color (fst (f u st))) s = WHITE) by exact CW.
        assert (P1 : d_preds (fst (f u st)) = preds0) by exact Pr. assert (O1 : forall x, snd (f u st) <> Error x) by (intros x; cbn [f call snd]; destruct (raises (DInit u)); discriminate).
        destruct (f u st) as [st1 o1]. cbn [fst snd] in *. destruct X1 as [X1 D1]. unfold thn. destruct o1; [|split; [exact X1|]; split; [exact D1|]; split; [exact P1|]; split; [exact W1|]; split; [|split; [discriminate|split; [exact O1|exact CW1]]]..].
        + apply (IH (pre ++ [u])); auto. rewrite <- app_assoc. exact EV.
        + intros v d. rewrite G1. destruct (mem_reflect v (pre ++ [u])) as [Iv|Iv]; [|auto]. right. rewrite <- H. unfold first_distance.
          rewrite (proj2 (mem_spec v V)); [reflexivity|]. rewrite EV. apply in_app_or in Iv. apply in_or_app. destruct Iv as [Iv|[<-|[]]]; [auto|right; left; reflexivity].
        + destruct (O1 x eq_refl). }
    apply (H V []); auto; [constructor|]. cbn [d_color]. rewrite color_of_dset, Nat.eqb_refl. reflexivity.
  Qed.

  (** every call ends, and its final state *)
  Lemma run_inv colors0 fuel : length universe + 1 <= fuel ->
    exists st o, dijkstra_shortest_paths V out_edges target pmap_eweight compare_arg combine zero infty raises fuel s dist0 preds0 colors0 = Some (st, o) /\
      ((o = Stopped /\ examined (d_log st) = [] /\ discovered (d_log st) = [] /\ d_preds st = preds0 /\ why st o /\ forall v d, dget (d_dist st) v = Some d -> dget dist0 v = Some d \/ first v = Some d) \/
       (o = Error KeyError /\ first s = None /\ examined (d_log st) = [] /\ discovered (d_log st) = [] /\ d_preds st = preds0 /\ why st Done /\ forall v, dget (d_dist st) v = first v) \/
       (first s <> None /\ inv st /\ why st o /\ (o = Done -> hp_data (d_heap st) = [] /\ forall u e, In u (examined (d_log st)) -> In e (out_edges u) -> ok_edge e))).
  Proof.
    intros L. unfold dijkstra_shortest_paths. pose proof (init_inv colors0) as H. destruct (initialization V zero infty raises s _) as [st o]. destruct H as (X & Dc & Pr & W & G & GD & NE & CW).
    destruct o; [|exists st, Stopped; auto 10|destruct (NE x eq_refl)]. specialize (GD eq_refl). rewrite GD. destruct (first s) as [d0|] eqn:Fs.
    2:{ exists st, (Error KeyError). split; [reflexivity|]. right. left. auto 10. }
    set (st1 := mkD _ _ _ _ _). assert (I1 : inv st1).
    { constructor; cbn [st1 d_dist d_preds d_color d_heap d_log]; rewrite ?X, ?Dc.
      - intros v. rewrite GD. reflexivity.
      - intros v [].
      - constructor.
      - intros v [].
      - rewrite app_nil_r. apply elems_init.
      - intros v d [->|[]]. rewrite GD, Fs. intros [= <-]. exists d0, []. split; [exact Fs|]. split; [constructor|constructor].
      - intros v d. rewrite GD. auto.
      - rewrite Pr. auto.
      - intros _. split; [intros u []|]. apply GD.
      - intros []. }
    destruct (loop_inv fuel st1 I1 (fun _ => conj X Dc) W) as (st' & o' & R & I' & W' & D').
    - congruence.
    - cbn [st1 d_log]. rewrite X. intros u e [].
    - lia.
    - exists st', o'. split; [exact R|]. right. right. split; [discriminate|]. auto.
  Qed.
End A.
