(** Theorems C142 on automaton_copy into an automaton that already has states, possibly the copied automaton itself. *)
From Verif Require Import Graph GraphSpec GraphProofs Search SearchSpec SearchProofs SearchUsers SearchUsersSpec CopyProofs TSearch
  Automaton AutomatonSpec AutomatonProofs AutCopy AutCopyProofs TAutCopy SelfCopy TSelfCopy AutSelfCopy Base BaseProofs.
#[local] Arguments dkeys : simpl never.

(** C142, into another automaton: its states, transitions, final states and initial state stay; the copy is beside them. *)
Theorem C142_into : forall (A : Type) (EA : EqDec A) n (ops : list (aop A)) m (ops0 : list (aop A)) (vrelevant : nat -> bool) (erelevant : edge A -> bool)
    (cb : option (nat -> nat -> aut A -> aut A)) (b : nat -> bool) s,
  (forall u u' h, match cb with None => h | Some f => f u u' h end = if b u then A_set_final h u' true else h) ->
  let g := fst (runs A_call (A_init n) ops) in
  let g0 := fst (runs A_call (A_init m) ops0) in
  let reached := steps (fun u v => exists e, In e (A_edges g) /\ source e = u /\ target e = v /\ erelevant e = true /\ vrelevant v = true) s in
  exists h pv pe done bound,
    (forall fuel, bound <= fuel -> automaton_copy g vrelevant erelevant cb fuel s g0 (Some []) (Some []) = Some (Ok (ACopying h pv pe done))) /\
    (NoDup (map fst pv) /\ forall v, In v (map fst pv) <-> reached v) /\
    (NoDup (A_vertices h) /\ A_vertices h = A_vertices g0 ++ map snd pv /\ In (s, au_last g0) pv /\ A_initial h = A_initial g0) /\
    (NoDup (map fst pe) /\ forall e, In e (map fst pe) <-> In e (A_edges g) /\ reached (source e) /\ erelevant e = true /\ vrelevant (target e) = true) /\
    (NoDup (A_edges h) /\ exists T, map snd pe = map Some T /\ Permutation (A_edges h) (A_edges g0 ++ T)) /\
    (forall e e', In (e, Some e') pe -> In (source e, source e') pv /\ In (target e, target e') pv /\ distinguisher e' = distinguisher e) /\
    (forall u u', In (u, u') pv -> A_is_final h u' = b u || A_is_final g0 u') /\
    (forall v, ~ In v (map snd pv) -> A_is_final h v = A_is_final g0 v) /\
    (forall w, A_accepts (A_set_initial h (Some (au_last g0)) true) w = true <->
       exists r y, path (filter (fun e => erelevant e && vrelevant (target e)) (A_edges g)) s w r /\ In (r, y) pv /\ (b r = true \/ A_is_final g0 y = true)).
Proof. exact automaton_copy_into. Qed.

Section Self.
  Context {A : Type} {EA : EqDec A}.
  Variables (vrelevant : nat -> bool) (erelevant : edge A -> bool) (with_finals : bool) (g : aut A).
  Let finals_of : option (nat -> nat -> aut A -> aut A) := if with_finals then Some (fun u u_dup h => if A_is_final g u then A_set_final h u_dup true else h) else None.
  Notation vis := (A_copy_visitor vrelevant erelevant (live_finals with_finals)).
  Notation vis' := (A_copy_visitor vrelevant erelevant finals_of).
  Definition a_grown (st : acopying A) : Prop :=
    (forall u, u < au_last g -> dget (au_adj (ac_dup st)) u = dget (au_adj g) u) /\ (forall u, u < au_last g -> A_is_final (ac_dup st) u = A_is_final g u) /\
    au_last g <= au_last (ac_dup st) /\ (forall x y, In (x, y) (ac_vertices st) -> au_last g <= y).
  Lemma a_dup_grown u st st' v : a_grown st -> A_dup_vertex (live_finals with_finals) u st = Ok (st', v) -> a_grown st' /\ au_last g <= v.
  Proof.
    intros (P & F & B & C) D. unfold A_dup_vertex, A_add_vertex in D. injection D as <- <-. split; [|exact B].
    set (h := mkAut _ _ _ _). assert (H : forall f, f = A_set_final h (au_last (ac_dup st)) true \/ f = h -> (forall x, x < au_last g -> dget (au_adj f) x = dget (au_adj g) x) /\ (forall x, x < au_last g -> A_is_final f x = A_is_final g x) /\ au_last g <= au_last f).
    { intros f X. assert (X1 : au_adj f = au_adj h) by (destruct X as [->| ->]; reflexivity). assert (X2 : au_last f = au_last h) by (destruct X as [->| ->]; reflexivity). split; [|split].
      - intros x L. rewrite X1. cbn. rewrite dget_dset_other by lia. apply P, L.
      - intros x L. transitivity (au_final (ac_dup st) x); [|apply F, L]. destruct X as [->| ->]; [|reflexivity]. unfold A_is_final. cbn [A_set_final au_final]. destruct (eqb_spec x (au_last (ac_dup st))) as [->|_]; [lia|reflexivity].
      - rewrite X2. cbn. lia. }
    match goal with |- a_grown (ACopying ?f _ _ _) => destruct (H f) as (X & Y & Z) end.
    { unfold live_finals. destruct with_finals; [|right; reflexivity]. destruct (A_is_final _ _); [left|right]; reflexivity. }
    split; [exact X|]. split; [exact Y|]. split; [exact Z|]. cbn [ac_vertices]. intros x y I. apply In_dset' in I. destruct I as [->|I]; [exact B|eapply C; exact I].
  Qed.
  Lemma a_vis_grown x st st' : a_grown st -> vis x st = Ok st' -> a_grown st'.
  Proof.
    intros G V. destruct x; cbn [A_copy_visitor] in V; try (injection V as <-; exact G).
    - destruct (A_dup_vertex _ v st) as [[st1 u]|] eqn:D; [|discriminate]. injection V as <-. eapply a_dup_grown; eassumption.
    - destruct (erelevant e && vrelevant (target e)); [|injection V as <-; exact G]. unfold A_copy_edge in V. destruct (dget (ac_vertices st) (source e)) as [u_dup|] eqn:GU; [|discriminate].
      assert (X : exists st1 v_dup, (if mem (target e) (ac_done st) then match dget (ac_vertices st) (target e) with Some v_dup => Ok (st, v_dup) | None => Raise KeyError end
        else A_dup_vertex (live_finals with_finals) (target e) st) = Ok (st1, v_dup) /\ a_grown st1 /\ au_last g <= v_dup).
      { destruct (mem (target e) (ac_done st)).
        - destruct (dget (ac_vertices st) (target e)) as [v|] eqn:GV; [|discriminate]. exists st, v. split; [reflexivity|]. split; [exact G|]. apply dget_In in GV. eapply G, GV.
        - destruct (A_dup_vertex _ (target e) st) as [[st1 v]|] eqn:D; [|discriminate]. exists st1, v. split; [reflexivity|]. eapply a_dup_grown; eassumption. }
      destruct X as (st1 & v_dup & X1 & (P & F & B & C) & X3). rewrite X1 in V. cbn [rbind] in V. unfold A_add_edge in V. apply dget_In in GU. pose proof (proj2 (proj2 (proj2 G)) _ _ GU) as LU.
      set (fal := negb _) in V. destruct fal; [injection V as <-; exact (conj P (conj F (conj B C)))|]. destruct (dget (au_adj (ac_dup st1)) u_dup) as [d|]; [|discriminate]. injection V as <-. split; [|split; [|split]]; cbn [ac_dup ac_vertices au_last].
      + intros u Lu. cbn [au_adj]. rewrite dget_dset_other by lia. apply P, Lu.
      + exact F.
      + exact B.
      + exact C.
  Qed.
  Definition fits (x : event (edge A)) : Prop := match x with Start v => v < au_last g | Examine e => target e < au_last g | _ => True end.
  Lemma a_dup_same u st : a_grown st -> u < au_last g -> A_dup_vertex (live_finals with_finals) u st = A_dup_vertex finals_of u st.
  Proof.
    intros (_ & F & _) L. unfold A_dup_vertex, A_add_vertex, live_finals, finals_of. destruct with_finals; [|reflexivity].
    assert (X : A_is_final (mkAut (S (au_last (ac_dup st))) (dset (au_adj (ac_dup st)) (au_last (ac_dup st)) []) (au_q0 (ac_dup st)) (au_final (ac_dup st))) u = A_is_final g u) by (apply F, L).
    rewrite X. reflexivity.
  Qed.
  Lemma a_vis_same x st : a_grown st -> fits x -> vis x st = vis' x st.
  Proof.
    intros G L. destruct x; try reflexivity; cbn [A_copy_visitor fits] in *.
    - rewrite (a_dup_same _ _ G L). reflexivity.
    - destruct (erelevant e && vrelevant (target e)); [|reflexivity]. unfold A_copy_edge. rewrite (a_dup_same _ _ G L). reflexivity.
  Qed.
  Lemma a_calls_same l : forall st, a_grown st -> Forall fits l -> calls vis l st = calls vis' l st.
  Proof.
    induction l as [|x l IH]; intros st G F; [reflexivity|]. inversion F as [|? ? F1 F2]; subst. cbn [calls]. rewrite <- (a_vis_same x st G F1). destruct (vis x st) as [st1|] eqn:V; [|reflexivity].
    cbn [rbind]. apply IH; [eapply a_vis_grown; eassumption|exact F2].
  Qed.
  Lemma a_self_same s : s < au_last g -> (forall u e, u < au_last g -> In e (A_out_edges g u) -> target e < au_last g) ->
    exists k, forall fuel, k <= fuel ->
      automaton_copy_self vrelevant erelevant with_finals fuel s g = automaton_copy g vrelevant erelevant finals_of fuel s g (Some []) (Some []) /\
      forall st, automaton_copy_self vrelevant erelevant with_finals fuel s g = Some (Ok st) -> a_grown st.
  Proof.
    intros Ls ST. set (st0 := ACopying g [] [] []). assert (G0 : a_grown st0). { split; [reflexivity|]. split; [reflexivity|]. split; [apply le_n|intros x y []]. }
    set (rel := fun e : edge A => erelevant e && vrelevant (target e)).
    destruct (dfs_white (A_out_edges g) target rel (A_finite g) s [] eq_refl) as (t & c' & R).
    destruct (dfs_run (A_out_edges g) target rel vis s [] t c' R) as (k1 & H1). destruct (dfs_run (A_out_edges g) target rel vis' s [] t c' R) as (k2 & H2).
    destruct (proj1 (run_edges (A_out_edges g) target rel) _ _ _ _ _ R) as (E1 & _).
    pose proof (vrun_discovered (A_out_edges g) target rel s [] _ t c' R (fun _ _ => eq_refl)) as D.
    assert (DL : forall v, In v (discovered t) -> v < au_last g).
    { intros v I. apply D in I. clear -I Ls ST. induction I as [x|x y z S _ IH]; [exact Ls|]. apply IH. destruct S as (e & Ie & _ & <-). eapply ST; eassumption. }
    assert (FT : Forall fits (Start s :: t)).
    { constructor; [exact Ls|]. apply Forall_forall. intros x I. pose proof (proj1 (run_no_start (A_out_edges g) target vrelevant erelevant) _ _ _ _ _ R x) as N. destruct x; cbn; trivial.
      - exfalso. exact (N v I eq_refl).
      - assert (J : In e (examined t)) by (apply in_flat_map; exists (Examine e); split; [exact I|left; reflexivity]).
        apply (Permutation_in _ E1) in J. apply in_flat_map in J. destruct J as (u & J1 & J2). apply filter_In in J2. eapply ST; [apply DL, J1|apply J2]. }
    exists (k1 + k2). intros fuel L.
    assert (X : automaton_copy_self vrelevant erelevant with_finals fuel s g = after vis (Start s :: t) st0 (fun st => Some (Ok st))).
    { unfold automaton_copy_self. rewrite (live_dfs_same (fun st u => A_out_edges (ac_dup st) u) (A_out_edges g) target rel vis (fun u => u < au_last g) a_grown).
      - rewrite H1 by lia. unfold after. fold st0. destruct (calls vis (Start s :: t) st0); reflexivity.
      - intros st u (P & _) Lu. unfold A_out_edges. rewrite P by exact Lu. reflexivity.
      - exact ST.
      - reflexivity.
      - intros x st st' G V. eapply a_vis_grown; eassumption.
      - exact G0.
      - exact Ls. }
    rewrite X. split.
    - unfold automaton_copy. fold rel. fold st0. rewrite H2 by lia. unfold after. rewrite (a_calls_same _ _ G0 FT). destruct (calls vis' (Start s :: t) st0); reflexivity.
    - intros st. unfold after. destruct (calls vis (Start s :: t) st0) as [st1|] eqn:C; [|discriminate]. intros [= <-]. eapply (calls_keep vis a_grown); [|exact G0|exact C]. intros x st2 st3 G V. eapply a_vis_grown; eassumption.
  Qed.
End Self.

(** C142, an automaton into itself: the copy is beside the automaton, which is otherwise unchanged. *)
Theorem C142_self : forall (A : Type) (EA : EqDec A) n (ops : list (aop A)) (vrelevant : nat -> bool) (erelevant : edge A -> bool) (with_finals : bool) s,
  let g := fst (runs A_call (A_init n) ops) in
  let reached := steps (fun u v => exists e, In e (A_edges g) /\ source e = u /\ target e = v /\ erelevant e = true /\ vrelevant v = true) s in
  In s (A_vertices g) -> (forall e, In e (A_edges g) -> In (target e) (A_vertices g)) ->
  exists h pv pe done bound,
    (forall fuel, bound <= fuel -> automaton_copy_self vrelevant erelevant with_finals fuel s g = Some (Ok (ACopying h pv pe done))) /\
    (NoDup (map fst pv) /\ forall v, In v (map fst pv) <-> reached v) /\
    (NoDup (A_vertices h) /\ A_vertices h = A_vertices g ++ map snd pv /\ In (s, au_last g) pv /\ A_initial h = A_initial g) /\
    (NoDup (map fst pe) /\ forall e, In e (map fst pe) <-> In e (A_edges g) /\ reached (source e) /\ erelevant e = true /\ vrelevant (target e) = true) /\
    (NoDup (A_edges h) /\ exists T, map snd pe = map Some T /\ Permutation (A_edges h) (A_edges g ++ T)) /\
    (forall e e', In (e, Some e') pe -> In (source e, source e') pv /\ In (target e, target e') pv /\ distinguisher e' = distinguisher e) /\
    (forall u u', In (u, u') pv -> A_is_final h u' = (with_finals && A_is_final g u) || A_is_final g u') /\
    (forall v, ~ In v (map snd pv) -> A_is_final h v = A_is_final g v) /\
    (forall w, A_accepts (A_set_initial h (Some (au_last g)) true) w = true <->
       exists r y, path (filter (fun e => erelevant e && vrelevant (target e)) (A_edges g)) s w r /\ In (r, y) pv /\ (with_finals && A_is_final g r = true \/ A_is_final g y = true)) /\
    (forall q w, In q (A_vertices g) -> A_delta_word h (Some q) w = A_delta_word g (Some q) w).
Proof.
  intros A EA n ops vrelevant erelevant with_finals s g reached Is CL.
  set (cb := if with_finals then Some (fun u u_dup h => if A_is_final g u then A_set_final h u_dup true else h) else None : option (nat -> nat -> aut A -> aut A)).
  destruct (automaton_copy_into A EA n ops n ops vrelevant erelevant cb (fun u => with_finals && A_is_final g u) s) as (h & pv & pe & done & k & H1 & H2 & H3 & H4 & H5 & H6 & H7 & H8 & H9).
  { intros u u' h. unfold cb. destruct with_finals; reflexivity. }
  fold g in H1, H2, H3, H4, H5, H6, H7, H8, H9. fold reached in H2, H4.
  destruct (arep_runs n ops) as [RG _]. fold g in RG. destruct RG as (L & K & W & _ & _ & _ & LT).
  assert (LV : forall v, In v (A_vertices g) -> v < au_last g) by (intros v I; rewrite L; apply LT; rewrite <- K; exact I).
  assert (ST : forall u e, u < au_last g -> In e (A_out_edges g u) -> target e < au_last g).
  { intros u e _ I. apply LV, CL. unfold A_out_edges in I. destruct (dget (au_adj g) u) as [d|] eqn:D; [|destruct I]. unfold A_edges. apply in_flat_map. exists (u, d). split; [apply dget_In, D|exact I]. }
  destruct (a_self_same vrelevant erelevant with_finals g s (LV s Is) ST) as (k2 & S). fold cb in S.
  exists h, pv, pe, done, (k + k2). split; [|split; [exact H2|]; split; [exact H3|]; split; [exact H4|]; split; [exact H5|]; split; [exact H6|]; split; [exact H7|]; split; [exact H8|]; split; [exact H9|]].
  - intros fuel F. rewrite (proj1 (S fuel ltac:(lia))). apply H1. lia.
  - destruct (S (k + k2) ltac:(lia)) as [S1 S2]. rewrite H1 in S1 by lia. apply S2 in S1. destruct S1 as (P & _). cbn [ac_dup] in P.
    intros q w. revert q. induction w as [|a w IH]; intros q I; [reflexivity|]. cbn [A_delta_word].
    assert (E : A_delta h q a = A_delta g q a) by (unfold A_delta; rewrite P by (apply LV, I); reflexivity).
    rewrite E. destruct (A_delta g q a) as [r|] eqn:D; [|destruct w; reflexivity]. apply IH. apply (CL (Edge q r a)).
    apply (In_tedges _ _ _ _ W). exact D.
Qed.
(** the states 1 and 2 of the automaton of [C78_example], with their final states, beside it *)
Example C142_example : let g := fst (runs A_call (A_init 4) [AAddEdge 1 2 7; AAddEdge 2 1 8; AAddEdge 1 3 9; AAddEdge 0 1 5; ASetFinal 2 true]) in
  In 1 (A_vertices g) /\ (forall e, In e (A_edges g) -> In (target e) (A_vertices g)) /\
  match automaton_copy_self (fun v => negb (v =? 3)) (fun _ => true) true 40 1 g with
  | Some (Ok st) => ac_vertices st = [(1, 4); (2, 5)] /\ A_edges (ac_dup st) = [Edge 0 1 5; Edge 1 2 7; Edge 1 3 9; Edge 2 1 8; Edge 4 5 7; Edge 5 4 8] /\
      A_finals (ac_dup st) = [2; 5] /\ A_accepts (A_set_initial (ac_dup st) (Some 4) true) [7; 8; 7] = true
  | _ => False
  end.
Proof.
  intros g. split; [vm_compute; auto|]. split; [|vm_compute; auto]. intros e I. vm_compute in I. vm_compute. decompose [or] I; subst; cbn; auto 6; contradiction.
Qed.
(** into an automaton that has a transition *)
Example C142_into_example : let g := fst (runs A_call (A_init 3) [AAddEdge 1 2 7; AAddEdge 2 1 8]) in
  match automaton_copy g (fun _ => true) (fun _ => true) None 40 1 (fst (runs A_call (A_init 2) [AAddEdge 1 0 7; ASetFinal 0 true; ASetFinal 3 true])) (Some []) (Some []) with
  | Some (Ok st) => ac_vertices st = [(1, 2); (2, 3)] /\ A_edges (ac_dup st) = [Edge 1 0 7; Edge 2 3 7; Edge 3 2 8] /\ A_finals (ac_dup st) = [0; 3]
  | _ => False
  end.
Proof. vm_compute. auto. Qed.

(** ** A transition to the state that the first copy will be *)
Notation T := (fun _ => true).
Notation self_loop := (live_loop (fun st u => A_out_edges (ac_dup st) u) target (fun e : edge nat => T e && T (target e)) (A_copy_visitor T T (live_finals false))).
(** [u], the copy of the state before, is met for the first time: its only transition goes to its own copy *)
Record a_chased (u : nat) (c : colors) (st : acopying nat) : Prop := {
  ah_copy : dget (ac_vertices st) u = Some (S u);
  ah_done : forall x, In x (ac_done st) -> x <= u;
  ah_next : au_last (ac_dup st) = S (S u);
  ah_adj : dget (au_adj (ac_dup st)) (S u) = Some [];
  ah_color : forall x, u < x -> color_of c x = WHITE }.
Lemma a_chase fuel : forall u stack c st, a_chased u c st -> self_loop fuel (Some (u, 0, 1, [Edge u (S u) 7])) stack c st = None.
Proof.
  induction fuel as [|fuel IH]; intros u stack c st [P B C D F]; [reflexivity|]. cbn [live_loop]. change (eqb 0 1) with false. cbn match. cbn [nth_error target].
  destruct (color_read_white c (S u) (F (S u) (Nat.lt_succ_diag_r u))) as [R1 R2]. destruct (color_read c (S u)) as [x c1]. cbn [fst snd] in R1, R2. subst x.
  assert (M : mem (S u) (ac_done st) = false). { destruct (mem_reflect (S u) (ac_done st)) as [I|I]; [|reflexivity]. apply B in I. lia. }
  cbn [calls A_copy_visitor andb rbind]. unfold A_copy_edge. cbn [source target distinguisher]. rewrite P, M. unfold A_dup_vertex, A_add_vertex, live_finals. rewrite C. cbn [rbind ac_dup ac_vertices ac_edges ac_done].
  unfold A_add_edge, A_delta. cbn [au_adj au_last]. rewrite dget_dset_other by lia. rewrite D. cbn [dget dset rbind ac_dup negb]. rewrite R2.
  unfold live_edges, A_out_edges. cbn [ac_dup au_adj]. rewrite dget_dset_same. cbn [map app filter andb length].
  apply IH. constructor; cbn [ac_dup ac_vertices ac_edges ac_done au_last au_adj].
  - apply dget_dset_same.
  - intros x I. apply In_sadd in I. destruct I as [->|I]; [apply le_n|apply B in I; lia].
  - reflexivity.
  - rewrite dget_dset_other by lia. apply dget_dset_same.
  - intros x L. rewrite color_dset. destruct (eqb_spec x (S u)) as [->|_]; [lia|]. apply F. lia.
Qed.
(** C142 without the hypothesis on the targets: the copy never ends. *)
Theorem C142_dangling : exists n (ops : list (aop nat)) s, let g := fst (runs A_call (A_init n) ops) in
  In s (A_vertices g) /\ forall fuel, automaton_copy_self T T false fuel s g = None.
Proof.
  exists 1, [AAddEdge 0 1 7], 0. split; [left; reflexivity|]. intros [|fuel]; [reflexivity|]. unfold automaton_copy_self.
  match goal with |- result _ ?x = _ => enough (X : x = None) by (rewrite X; reflexivity) end. unfold live_depth_first_search. cbn -[live_loop].
  cbn [live_loop]. unfold live_edges. cbn -[live_loop]. apply a_chase. constructor; try reflexivity.
  - intros x [<-|[]]. apply le_n.
  - intros [|x] L; [inversion L|reflexivity].
Qed.
Print Assumptions C142_into.
Print Assumptions C142_self.
Print Assumptions C142_dangling.
