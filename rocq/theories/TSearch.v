(** Theorems C33, C34 on depth_first_search. *)
From Verif Require Import Base BaseProofs Graph Automaton Search SearchSpec SearchProofs SearchProofs2.

Section T.
  Context {E : Type}.
  Variables (out_edges : nat -> list E) (target source : E -> nat) (if_push : E -> bool).
  Notation next := (next out_edges target if_push).
  Hypothesis FIN : finite_graph out_edges target.

  Lemma closed_exists (S : list nat) : exists V, closed_set out_edges target if_push V /\ incl S V.
  Proof.
    destruct FIN as (l & H). exists (S ++ l). split; [|apply incl_appl, incl_refl]. intros u v _ (e & I & _ & <-). apply in_or_app. right. apply (H u e I).
  Qed.

  (** The search makes the same calls whatever the visitor: [t] is the sequence of the calls, cut at the first one which
      raises. *)
  Definition performs {C} (search : forall St, (event E -> St -> res St) -> nat -> St -> option (res (C * St))) (t : list (event E)) (c' : C) : Prop :=
    forall St (vis : event E -> St -> res St), exists bound, forall st fuel, bound <= fuel ->
      search St vis fuel st = Some (match calls vis t st with Ok st' => Ok (c', st') | Raise x => Raise x end).
  Definition dfs_calls (s : nat) (c : colors) (t : list (event E)) (c' : colors) : Prop :=
    performs (fun St vis fuel st => depth_first_search out_edges target if_push vis fuel s c st) t c'.
  Definition dfs_graph_calls (vertices sources : list nat) (c : colors) (t : list (event E)) (c' : colors) : Prop :=
    performs (fun St vis fuel st => depth_first_search_graph out_edges target if_push vis fuel vertices sources c st) t c'.

  Lemma dfs_calls_run s c t c' : vrun out_edges target if_push s c (asks out_edges s ++ asks out_edges s) t c' -> dfs_calls s c (Start s :: t) c'.
  Proof.
    intros R St vis. destruct (dfs_run out_edges target if_push vis s c t c' R) as (k & H). exists k. intros st fuel L. rewrite (H st fuel L).
    unfold after. destruct (calls vis (Start s :: t) st); reflexivity.
  Qed.
  Lemma dfs_white s c : color_of c s = WHITE -> exists t c', vrun out_edges target if_push s c (asks out_edges s ++ asks out_edges s) t c'.
  Proof.
    intros W. destruct (closed_exists [s]) as (V & CV & I). eapply vrun_exists; [exact CV|apply Forall_app; split; apply asks_ask|apply I; left; reflexivity|exact W].
  Qed.
  Lemma vrun_discovered s c a t c' : vrun out_edges target if_push s c a t c' -> (forall v, steps next s v -> color_of c v = WHITE) ->
    forall x, In x (discovered t) <-> steps next s x.
  Proof.
    intros R W x. destruct (proj1 (run_edges out_edges target if_push) _ _ _ _ _ R) as (_ & E2 & E3). split; [apply E3|].
    pose proof (proj1 (run_facts out_edges target if_push) _ _ _ _ _ R) as F. pose proof (proj1 (run_closed out_edges target if_push) _ _ _ _ _ R) as CL.
    assert (G : forall u, In u (discovered t) -> steps next u x -> In x (discovered t)); [|intros S; apply (G s); [rewrite E2; left; reflexivity|exact S]].
    intros u I S. induction S as [u|u y z N S IH]; [exact I|]. apply IH. destruct (in_dec' y (discovered t)) as [Y|Y]; [exact Y|].
    destruct (CL u y I N). rewrite (f_other _ _ _ F y Y). apply W. eapply steps_trans; [apply E3, I|apply steps_one, N].
  Qed.

  (** C33: one source. *)
  Theorem C33_depth_first_search s c : (forall v, steps next s v -> color_of c v = WHITE) -> exists t c', dfs_calls s c t c' /\
    NoDup (discovered t) /\ (forall v, In v (discovered t) <-> steps next s v) /\
    Permutation (finished t) (discovered t) /\
    Permutation (examined t) (flat_map (fun u => filter if_push (out_edges u)) (discovered t)) /\
    Permutation (examined t) (tree_edges t ++ back_edges t ++ forward_or_cross_edges t) /\
    discovered t = s :: map target (tree_edges t) /\
    (forall v, In v (discovered t) -> color_of c' v = BLACK) /\ (forall v, ~ In v (discovered t) -> color_of c' v = color_of c v).
  Proof.
    intros W. destruct (dfs_white s c (W s (steps_refl _ _))) as (t & c' & R). exists (Start s :: t), c'. split; [apply dfs_calls_run, R|].
    destruct (facts_start c s t c' (proj1 (run_facts out_edges target if_push) _ _ _ _ _ R)) as [F1 F2 F3 F4 F5 F6].
    destruct (proj1 (run_edges out_edges target if_push) _ _ _ _ _ R) as (E1 & E2 & E3).
    split; [exact F1|]. split; [exact (vrun_discovered s c _ t c' R W)|]. split; [exact F5|]. split; [exact E1|]. split; [exact F6|]. split; [exact E2|].
    split; [intros v I; apply F2, I|exact F3].
  Qed.

  Lemma white_settled c : (forall v, color_of c v = WHITE) -> settled out_edges target if_push c.
  Proof. intros W. split; [intros x; rewrite W; discriminate|]. intros x y X. rewrite W in X. discriminate. Qed.

  (** C33: several sources; all the vertices when no source is given. *)
  Theorem C33_depth_first_search_graph vertices sources c : (forall v, color_of c v = WHITE) ->
    let from := match sources with [] => vertices | _ => sources end in
    exists t c', dfs_graph_calls vertices sources c t c' /\
    NoDup (discovered t) /\ (forall v, In v (discovered t) <-> exists s, In s from /\ steps next s v) /\
    Permutation (finished t) (discovered t) /\
    Permutation (examined t) (flat_map (fun u => filter if_push (out_edges u)) (discovered t)) /\
    (forall v, color_of c' v = if mem v (discovered t) then BLACK else WHITE) /\
    (forall v, In v (dkeys c') <-> In v (dkeys c) \/ In v (discovered t)).
  Proof.
    intros W from. destruct (closed_exists from) as (V & CV & I). destruct (sruns_exists out_edges target if_push V CV from I c) as (t & c' & R).
    exists t, c'. split.
    - intros St vis. destruct (dfs_sources_run out_edges target if_push vis from c t c' R) as (k & H). exists k. intros st fuel L. unfold depth_first_search_graph.
      fold from. rewrite (H st fuel L). unfold after. destruct (calls vis t st); reflexivity.
    - pose proof (sruns_facts _ _ _ _ _ _ _ R) as [F1 F2 F3 F4 F5 F6].
      (* the source of an edge plays no role here *)
      assert (X : exists S2 : settled out_edges target if_push c', (forall u, In u from -> color_of c' u = BLACK) /\
        (forall x, In x (discovered t) -> exists u, In u from /\ steps next u x) /\ Permutation (examined t) (flat_map (u_edges out_edges if_push) (discovered t))).
      { clear F1 F2 F3 F4 F5 F6 I. pose proof (white_settled c W) as S. clear W. revert S. induction R as [c|u l c t c1 t' c2 WH R SR IH|u l c t c' WH SR IH]; intros S.
        - exists S. split; [intros u []|]. split; [intros u []|constructor].
        - pose proof (proj1 (run_facts out_edges target if_push) _ _ _ _ _ R) as F. pose proof (sruns_facts _ _ _ _ _ _ _ SR) as F'.
          pose proof (vrun_settled _ _ _ _ _ _ _ _ R S) as S1.
          destruct (IH S1) as (S2 & H1 & H2 & H3). destruct (proj1 (run_edges out_edges target if_push) _ _ _ _ _ R) as (E1 & E2 & E3).
          exists S2. change ((Start u :: t) ++ t') with ([Start u] ++ t ++ t'). rewrite !disc_app, !exam_app. change (discovered [Start u]) with (@nil nat). change (examined [Start u]) with (@nil E). cbn [app].
          split; [|split].
          + intros x [<-|X]; [|apply H1, X]. assert (Y : color_of c1 u = BLACK) by (apply (f_disc _ _ _ F); rewrite E2; left; reflexivity).
            rewrite (nonwhite _ _ _ _ F'); rewrite Y; [reflexivity|discriminate].
          + intros x X. apply in_app_or in X. destruct X as [X|X]; [exists u; split; [left; reflexivity|apply E3, X]|]. destruct (H2 x X) as (u' & I & Y). exists u'. split; [right; exact I|exact Y].
          + rewrite flat_map_app. apply Permutation_app; assumption.
        - pose proof (sruns_facts _ _ _ _ _ _ _ SR) as F'. destruct (IH S) as (S2 & H1 & H2 & H3). exists S2. split; [|split]; try assumption.
          + intros x [<-|X]; [|apply H1, X]. assert (Y : color_of c u = BLACK) by (pose proof (proj1 S u); destruct (color_of c u); [contradiction|contradiction|reflexivity]).
            rewrite (nonwhite _ _ _ _ F'); rewrite Y; [reflexivity|discriminate].
          + intros x X. destruct (H2 x X) as (u' & I & Y). exists u'. split; [right; exact I|exact Y]. }
      destruct X as ([S1 S2] & H1 & H2 & H3). split; [exact F1|]. split; [|split; [exact F5|split; [exact H3|split; [|exact F4]]]].
      + intros v. split; [apply H2|]. intros (s & Is & Sv). assert (Y : color_of c' v = BLACK).
        { specialize (H1 s Is). clear Is. induction Sv as [s|s y z N S IH]; [exact H1|]. apply IH, (S2 s y H1 N). }
        destruct (in_dec' v (discovered t)) as [D|D]; [exact D|]. rewrite (F3 v D), W in Y. discriminate.
      + intros v. destruct (mem_reflect v (discovered t)) as [D|D]; [apply F2, D|]. rewrite (F3 v D). apply W.
  Qed.

  (** C34 *)
  Theorem C34_back_edges s c : (forall u e, In e (out_edges u) -> source e = u) -> (forall v, steps next s v -> color_of c v = WHITE) ->
    exists t c', dfs_calls s c t c' /\
    (back_edges t <> [] <-> exists x, steps next s x /\ plus next x x) /\
    (forall e, In e (back_edges t) -> steps (down source target t) (target e) (source e) /\ In (source e) (discovered t)).
  Proof.
    intros SRC W. destruct (dfs_white s c (W s (steps_refl _ _))) as (t & c' & R). exists (Start s :: t), c'. split; [apply dfs_calls_run, R|].
    pose proof (vrun_discovered s c _ t c' R W) as D. pose proof (proj1 (run_facts out_edges target if_push) _ _ _ _ _ R) as F.
    destruct (proj1 (run_back out_edges target source if_push SRC) _ _ _ _ _ R) as (K1 & K2).
    destruct (proj1 (run_edges out_edges target if_push) _ _ _ _ _ R) as (E1 & E2 & E3).
    assert (EX : forall e, In e (examined t) -> next (source e) (target e)).
    { intros e I. apply (Permutation_in _ E1) in I. apply in_flat_map in I. destruct I as (u & _ & I). apply filter_In in I. exists e. rewrite (SRC u e (proj1 I)).
      split; [apply I|]. split; [apply I|reflexivity]. }
    assert (BX : forall e, In e (back_edges t) -> In e (examined t)).
    { intros e I. apply (Permutation_in _ (Permutation_sym (f_class _ _ _ F))). apply in_or_app. right. apply in_or_app. left. exact I. }
    assert (TX : forall e, In e (tree_edges t) -> In e (examined t)).
    { intros e I. apply (Permutation_in _ (Permutation_sym (f_class _ _ _ F))). apply in_or_app. left. exact I. }
    assert (BK : forall e, In e (back_edges t) -> In (target e) (discovered t) /\ steps (down source target t) (target e) (source e) /\ In (source e) (discovered t)).
    { intros e I. destruct (K2 e I) as [Y1 [Y2|[Y2 Y3]]]; [|auto]. exfalso. assert (X : color_of c (target e) = WHITE).
      { apply W. eapply steps_trans; [apply D, Y1|apply steps_one, EX, BX, I]. } congruence. }
    split.
    - change (back_edges (Start s :: t)) with (back_edges t). split.
      + destruct (back_edges t) as [|e l] eqn:B; [intros X; destruct (X eq_refl)|]. intros _. destruct (BK e (or_introl eq_refl)) as (I1 & I2 & I3).
        exists (target e). split; [apply D, I1|]. apply (steps_back _ _ (source e)).
        * revert I2. apply steps_sub. intros x y (e' & I & <- & <-). apply EX, TX, I.
        * apply EX, BX. left. reflexivity.
      + intros (x & Sx & C) B. pose proof (proj1 (run_order out_edges target if_push) _ _ _ _ _ R B) as O.
        apply (ordered_acyclic out_edges target if_push (finished t) (fun _ => False)) with (x := x); try tauto.
        * eapply Permutation_NoDup; [apply Permutation_sym, (f_fin _ _ _ F)|apply (f_nodup _ _ _ F)].
        * assert (X : forall y, In y (finished t) -> color_of c y = WHITE). { intros y I. apply (f_disc _ _ _ F). apply (Permutation_in _ (f_fin _ _ _ F)), I. }
          revert O.
          assert (G : forall (FF : list nat) (P Q : nat -> Prop), (forall y z, In y FF -> next y z -> P z -> Q z) -> ordered out_edges target if_push P FF -> ordered out_edges target if_push Q FF).
          { induction FF as [|y FF IH]; intros P Q H; cbn; [trivial|]. intros [H1 H2]. split; [intros z Z; apply (H y z (or_introl eq_refl) Z), H1, Z|].
            apply (IH (fun z => P z \/ z = y)); [|exact H2]. intros a b I N [Z|Z]; [left; apply (H a b (or_intror I) N Z)|right; exact Z]. }
          apply G. intros y z I N Z. assert (W' : color_of c z = WHITE); [|congruence]. apply W. eapply steps_trans; [|apply steps_one, N]. apply D. apply (Permutation_in _ (f_fin _ _ _ F)), I.
        * apply (Permutation_in _ (Permutation_sym (f_fin _ _ _ F))), D, Sx.
    - intros e I. destruct (BK e I) as (_ & I2 & I3). split; [exact I2|exact I3].
  Qed.
End T.

(** The graphs of the library are finite, and their edges know their source: DirectedGraph, UndirectedGraph (same
    out_edges), IncidenceGraph; Automaton, IncidenceAutomaton, NodeAutomaton. *)
Lemma G_finite g : finite_graph (G_out_edges g) target.
Proof.
  exists (map target (G_edges g)). intros u e I. apply in_map. unfold G_out_edges in I. destruct (dget (adjacencies g) u) as [d|] eqn:D; [|destruct I].
  unfold G_edges. apply in_flat_map. exists (u, d). split; [apply dget_In, D|exact I].
Qed.
Lemma G_source g u e : In e (G_out_edges g u) -> source e = u.
Proof.
  unfold G_out_edges. destruct (dget (adjacencies g) u) as [d|]; [|intros []]. unfold star. intros I. apply in_flat_map in I. destruct I as ((v & s) & _ & I).
  apply in_map_iff in I. destruct I as (n & <- & _). reflexivity.
Qed.
Lemma A_finite {A} (g : aut A) : finite_graph (A_out_edges g) target.
Proof.
  exists (map target (A_edges g)). intros u e I. apply in_map. unfold A_out_edges in I. destruct (dget (au_adj g) u) as [d|] eqn:D; [|destruct I].
  unfold A_edges. apply in_flat_map. exists (u, d). split; [apply dget_In, D|exact I].
Qed.
Lemma A_source {A} (g : aut A) u e : In e (A_out_edges g u) -> source e = u.
Proof.
  unfold A_out_edges. destruct (dget (au_adj g) u) as [d|]; [|intros []]. intros I. apply in_map_iff in I. destruct I as ((a & r) & <- & _). reflexivity.
Qed.

(** The theorems above for the graphs of the library. *)
Theorem C33_graph (g : graph) if_push s c : (forall v, steps (next (G_out_edges g) target if_push) s v -> color_of c v = WHITE) ->
  exists t c', dfs_calls (G_out_edges g) target if_push s c t c' /\ NoDup (discovered t) /\
    (forall v, In v (discovered t) <-> steps (next (G_out_edges g) target if_push) s v) /\ Permutation (finished t) (discovered t) /\
    Permutation (examined t) (flat_map (fun u => filter if_push (G_out_edges g u)) (discovered t)).
Proof.
  intros W. destruct (C33_depth_first_search (G_out_edges g) target if_push (G_finite g) s c W) as (t & c' & H1 & H2 & H3 & H4 & H5 & _).
  exists t, c'. repeat (split; [assumption|]). assumption.
Qed.

(** 0 -> 1 -> 2 -> 0, 0 -> 2, 3 -> 0 *)
Definition ex_graph : graph := fst (run DG_call (G_init 4) [OpAddEdge 0 1; OpAddEdge 1 2; OpAddEdge 2 0; OpAddEdge 0 2; OpAddEdge 3 0]).
Definition record_calls {E} (x : event E) (l : list (event E)) : res (list (event E)) := Ok (l ++ [x]).
Example C33_example : (forall v, steps (next (G_out_edges ex_graph) target (fun _ => true)) 0 v -> color_of [] v = WHITE) /\
  match depth_first_search (G_out_edges ex_graph) target (fun _ => true) record_calls 20 0 [] [] with
  | Some (Ok (c, t)) => (discovered t, finished t, map target (examined t), map source (back_edges t), c) = ([0; 1; 2], [2; 1; 0], [1; 2; 0; 2], [2], [(0, BLACK); (1, BLACK); (2, BLACK)])
  | _ => False
  end.
Proof. split; [reflexivity|]. vm_compute. reflexivity. Qed.
(** C34: the cycle of [ex_graph] is found from 0; there is none to find when the edge 2 -> 0 is not accepted *)
Example C34_example : (forall u e, In e (G_out_edges ex_graph u) -> source e = u) /\
  let backs if_push := match depth_first_search (G_out_edges ex_graph) target if_push record_calls 20 0 [] [] with Some (Ok (c, t)) => back_edges t | _ => [] end in
  (backs (fun _ => true), backs (fun e => negb (eqb e (Edge 2 0 0)))) = ([Edge 2 0 0], []).
Proof. split; [apply G_source|]. vm_compute. reflexivity. Qed.
Print Assumptions C33_depth_first_search.
Print Assumptions C33_depth_first_search_graph.
Print Assumptions C33_graph.
Print Assumptions C34_back_edges.
