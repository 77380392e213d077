(** Property C78: automaton_copy. *)
From Verif Require Import Graph GraphSpec GraphProofs Search SearchSpec SearchProofs SearchProofs2 SearchUsers SearchUsersSpec SearchUsersProofs CopyProofs TSearch
  Automaton AutomatonSpec AutomatonProofs AutCopy AutCopyProofs Base BaseProofs.
#[local] Arguments dkeys : simpl never.

(** C78 as stated is false: the maps that are omitted are dict objects, which make_assoc_property_map refuses. *)
Theorem C78_default_maps_never : forall (A : Type) (EA : EqDec A) (g : aut A) vrel erel cb fuel s g_dup,
  automaton_copy g vrel erel cb fuel s g_dup None None = Some (Raise TypeError).
Proof. reflexivity. Qed.
(** Without callback, the final states are not copied. *)
Theorem C78_finals_refuted : exists (ops : list (aop nat)) s, let g := fst (runs A_call (A_init 2) ops) in
  A_accepts g [7] = true /\ A_initial g = Some s /\
  match automaton_copy g (fun _ => true) (fun _ => true) None 20 s (A_init 0) (Some []) (Some []) with
  | Some (Ok st) => A_edges (ac_dup st) = A_edges g /\ A_accepts (ac_dup st) [7] = false
  | _ => False
  end.
Proof. exists [AAddEdge 0 1 7; ASetFinal 1 true], 0. vm_compute. auto. Qed.

(** The copy into an automaton [g0], which may have states. *)
Lemma automaton_copy_into : forall (A : Type) (EA : EqDec A) n (ops : list (aop A)) m (ops0 : list (aop A)) (vrelevant : nat -> bool) (erelevant : edge A -> bool)
    (cb : option (nat -> nat -> aut A -> aut A)) (b : nat -> bool) s,
  (forall u u' h, match cb with None => h | Some f => f u u' h end = if b u then A_set_final h u' true else h) ->
  let g := fst (runs A_call (A_init n) ops) in
  let g0 := fst (runs A_call (A_init m) ops0) in
  let reached := steps (fun u v => exists e, In e (A_edges g) /\ source e = u /\ target e = v /\ erelevant e = true /\ vrelevant v = true) s in
  exists h pv pe done bound,
    (forall fuel, bound <= fuel -> automaton_copy g vrelevant erelevant cb fuel s g0 (Some []) (Some []) = Some (Ok (ACopying h pv pe done))) /\
    (NoDup (map fst pv) /\ forall v, In v (map fst pv) <-> reached v) /\
    (NoDup (A_vertices h) /\ A_vertices h = A_vertices g0 ++ map snd pv /\ In (s, au_last g0) pv /\ A_initial h = A_initial g0) /\
    (NoDup (map fst pe) /\ forall e, In e (map fst pe) <-> In e (A_edges g) /\ reached (source e) /\ erelevant e = true /\ vrelevant (target e) = true) /\
    (NoDup (A_edges h) /\ exists T, map snd pe = map Some T /\ Permutation (A_edges h) (A_edges g0 ++ T)) /\
    (forall e e', In (e, Some e') pe -> In (source e, source e') pv /\ In (target e, target e') pv /\ distinguisher e' = distinguisher e) /\
    (forall u u', In (u, u') pv -> A_is_final h u' = b u || A_is_final g0 u') /\
    (forall v, ~ In v (map snd pv) -> A_is_final h v = A_is_final g0 v) /\
    (forall w, A_accepts (A_set_initial h (Some (au_last g0)) true) w = true <->
       exists r y, path (filter (fun e => erelevant e && vrelevant (target e)) (A_edges g)) s w r /\ In (r, y) pv /\ (b r = true \/ A_is_final g0 y = true)).
Proof.
  intros A EA n ops m ops0 vrelevant erelevant cb b s CB g g0 reached. destruct (arep_runs m ops0) as [R0 _]. change (fst (runs A_call (A_init m) ops0)) with g0 in R0. set (s0 := fst (runs aa_step _ _)) in R0. clearbody g0 s0. destruct (arep_runs n ops) as [RG _]. change (fst (runs A_call (A_init n) ops)) with g in RG. set (sg := fst (runs aa_step _ _)) in RG. clearbody g sg.
  pose proof RG as (_ & _ & W & TRG & _).
  pose proof R0 as (L0 & K0 & W0 & TR0 & Q0 & F0 & LT0).
  assert (T0 : forall e, In e (aa_T s0) -> source e < aa_next s0).
  { intros [q r a] I. apply TR0 in I. cbn. apply LT0. rewrite <- K0. unfold tr in I. destruct (dget (au_adj g0) q) as [d|] eqn:D; [|discriminate]. eapply dget_Some_key. exact D. }
  set (rel := fun e : edge A => erelevant e && vrelevant (target e)).
  assert (IE : forall q r a, In (Edge q r a) (A_edges g) <-> tr (au_adj g) q a = Some r) by (intros; apply In_tedges; exact W).
  assert (OE : forall u e, In e (A_out_edges g u) <-> In e (A_edges g) /\ source e = u).
  { intros u [q r a]. cbn. unfold A_out_edges. rewrite IE. unfold tr. split.
    - destruct (dget (au_adj g) u) as [d|] eqn:D; [|intros []]. intros I. apply in_map_iff in I. destruct I as ([a' r'] & [= <- -> ->] & I). rewrite D. split; [|reflexivity]. apply In_dget; [apply (proj2 W _ _ D)|exact I].
    - intros [T ->]. destruct (dget (au_adj g) u) as [d|]; [|discriminate]. apply in_map_iff. exists (a, r). split; [reflexivity|apply dget_In, T]. }
  assert (DET : forall e e', In e (A_edges g) -> In e' (A_edges g) -> source e = source e' -> distinguisher e = distinguisher e' -> e = e').
  { intros [q r a] [q' r' a'] I J. cbn. intros -> ->. apply IE in I, J. congruence. }
  assert (NE : NoDup (A_edges g)) by (apply NoDup_tedges, W).
  assert (RS : forall v, reached v <-> steps (next (A_out_edges g) target rel) s v).
  { intros v. unfold reached. split; (apply steps_sub; intros x y).
    - intros (e & I & <- & <- & Er & Vr). exists e. split; [apply OE; auto|]. split; [unfold rel; rewrite Er, Vr; reflexivity|reflexivity].
    - intros (e & I & R & <-). apply OE in I. apply andb_true_iff in R. exists e. tauto. }
  destruct (dfs_white (A_out_edges g) target rel (A_finite g) s [] eq_refl) as (t & c' & R).
  destruct (dfs_run (A_out_edges g) target rel (A_copy_visitor vrelevant erelevant cb) s [] t c' R) as (k & H).
  destruct (proj1 (run_edges (A_out_edges g) target rel) _ _ _ _ _ R) as (E1 & E2 & E3).
  pose proof (vrun_discovered (A_out_edges g) target rel s [] _ t c' R (fun _ _ => eq_refl)) as D.
  pose proof (proj1 (run_facts (A_out_edges g) target rel) _ _ _ _ _ R) as F.
  assert (XR : forall e, In e (examined t) <-> exists u, In u (discovered t) /\ In e (A_out_edges g u) /\ rel e = true).
  { intros e. etransitivity; [split; apply Permutation_in; [exact E1|symmetry; exact E1]|]. rewrite in_flat_map. split; intros (u & I & J); exists u; (split; [exact I|]); [apply filter_In in J; exact J|apply filter_In; exact J]. }
  assert (XR' : Forall (fun e => rel e = true) (examined t)) by (apply Forall_forall; intros e I; apply XR in I; destruct I as (u & _ & _ & I); exact I).
  assert (NX : NoDup (examined t)).
  { eapply Permutation_NoDup; [apply Permutation_sym, E1|]. pose proof (f_nodup _ _ _ F) as N. revert N. generalize (discovered t) as l. induction l as [|u l IH]; cbn; intros N; [constructor|].
    inversion N as [|? ? N1 N2]; subst. apply NoDup_app_intro; [apply NoDup_filter|apply IH, N2|].
    - unfold A_out_edges. destruct (dget (au_adj g) u) as [d|] eqn:Du; [|constructor]. assert (ND : NoDup (dkeys d)) by apply (proj2 W _ _ Du). apply (NoDup_map_inv distinguisher). rewrite map_map. erewrite map_ext; [exact ND|]. intros [a r]. reflexivity.
    - intros e I J. apply filter_In in I. apply in_flat_map in J. destruct J as (u' & J1 & J2). apply filter_In in J2. destruct I as [I _], J2 as [J2 _]. apply OE in I, J2. destruct I as [_ <-], J2 as [_ <-]. exact (N1 J1). }
  set (st0 := ACopying g0 [] [] [] : acopying A).
  assert (C0 : acinv b s0 st0).
  { constructor; cbn; try constructor; try tauto. exists [], (aa_final s0). split; [|split; [reflexivity|split; [intros u u' []|reflexivity]]].
    rewrite !app_nil_r, Nat.add_0_r. destruct s0. exact R0. }
  destruct (a_dup_inv cb b CB s0 LT0 T0 s st0 C0 (fun x => x)) as (st1 & s' & D1 & C1 & PV1 & PE1). cbn [st0 ac_vertices ac_edges app] in PV1, PE1.
  assert (s' = au_last g0). { pose proof (ai_v _ _ _ C1) as X. rewrite PV1 in X. cbn in X. congruence. } subst s'.
  destruct (a_copy_edges_inv cb b CB s0 LT0 T0 (examined t) st1 C1) as (st' & X1 & X2 & (l & X5) & X3 & X4 & X6).
  { apply (proj1 (run_sourced (A_out_edges g) source target vrelevant erelevant (A_source g)) _ _ _ _ _ R). rewrite PV1. left. reflexivity. }
  { exact NX. }
  { rewrite PE1. intros e _ []. }
  { rewrite PE1. cbn [dkeys map app]. intros e e' I J. apply DET; [apply XR in I; destruct I as (u & _ & I & _); apply OE in I; apply I|apply XR in J; destruct J as (u & _ & J & _); apply OE in J; apply J]. }
  destruct st' as [h pv pe done]. cbn [ac_vertices ac_edges ac_dup] in *. rewrite PE1 in X4, X6. cbn [dkeys map app] in X4. specialize (X6 (fun e o (I : In (e, o) []) => False_ind _ I)). pose proof X2 as X2'. destruct X2' as [(T & f & RH & ET & FV & FO) V0 V1 V2 V3 V4]. cbn [ac_vertices ac_edges ac_dup ac_done] in *.
  exists h, pv, pe, done, k.
  assert (KV : forall v, In v (dkeys pv) <-> reached v).
  { intros v. rewrite RS. rewrite X3, PV1, <- D. unfold dkeys. cbn [In map fst]. rewrite E2. split.
    + intros [[<-|[]]|I]; [left; reflexivity|]. rewrite <- E2. apply in_map_iff in I. destruct I as (e & <- & I). apply D.
      apply XR in I. destruct I as (u & J & I & RI). eapply steps_trans; [apply D, J|]. apply steps_one. exists e. auto.
    + intros [<-|I]; [left; left; reflexivity|]. right. apply in_map_iff in I. destruct I as (e & <- & I). apply in_map.
      apply (Permutation_in _ (Permutation_sym (f_class _ _ _ F))), in_or_app. left. exact I. }
  assert (KE : forall e, In e (dkeys pe) <-> In e (A_edges g) /\ reached (source e) /\ erelevant e = true /\ vrelevant (target e) = true).
  { intros e. rewrite X4, XR. split.
    - intros (u & I & J & Q). apply OE in J. destruct J as [J <-]. apply andb_true_iff in Q. split; [exact J|]. split; [apply RS, D, I|exact Q].
    - intros (I & J & Q). exists (source e). split; [apply D, RS, J|]. split; [apply OE; auto|]. apply andb_true_iff, Q. }
  pose proof (obs_edges _ _ RH) as PT. cbn [aa_T] in PT.
  assert (ENDS : forall e e', In (e, Some e') pe -> In (source e, source e') pv /\ In (target e, target e') pv /\ distinguisher e' = distinguisher e).
  { intros e e' I. destruct (V4 e e' I) as (P & Q & S). split; [apply dget_In, P|]. split; [apply dget_In, Q|exact S]. }
  split.
  { intros fuel L. unfold automaton_copy. fold st0. rewrite H by exact L. unfold after. cbn [calls].
    change (A_copy_visitor vrelevant erelevant cb (Start s) st0) with (rbind (A_dup_vertex cb s st0) (fun '(st, _) => Ok st)). rewrite D1. cbn [rbind].
    rewrite (a_copy_calls cb vrelevant erelevant), X1; [reflexivity|apply (proj1 (run_no_start (A_out_edges g) target vrelevant erelevant) _ _ _ _ _ R)|exact XR']. }
  split. { split; [exact V1|exact KV]. }
  assert (AV : A_vertices h = A_vertices g0 ++ map snd pv). { rewrite V0. change (A_vertices g0) with (dkeys (au_adj g0)). rewrite K0. apply RH. }
  assert (I0 : In (s, au_last g0) pv) by (rewrite X5, PV1; left; reflexivity).
  split. { split; [apply RH|]. split; [exact AV|]. split; [exact I0|]. unfold A_initial. rewrite Q0. apply RH. }
  split. { split; [exact V3|exact KE]. }
  pose proof (obs_edges _ _ R0) as PT0.
  split. { split; [apply NoDup_tedges, RH|]. exists T. split; [exact ET|]. etransitivity; [exact PT|]. apply Permutation_app_tail. symmetry. exact PT0. }
  split; [exact ENDS|].
  assert (FIN : forall u u', In (u, u') pv -> A_is_final h u' = b u || A_is_final g0 u').
  { intros u u' I. unfold A_is_final. pose proof RH as (_ & _ & _ & _ & _ & Ff & _). cbn in Ff. rewrite Ff, F0. apply FV, I. }
  split; [exact FIN|].
  split. { intros v N. unfold A_is_final. pose proof RH as (_ & _ & _ & _ & _ & Ff & _). cbn in Ff. rewrite Ff, F0. apply FO. rewrite V0, in_seq in N. lia. }
  (* the language *)
  assert (PVge : forall u x, In (u, x) pv -> aa_next s0 <= x). { intros u x I. apply (in_map snd) in I. cbn in I. rewrite V0 in I. apply in_seq in I. lia. }
  assert (HE : forall e', aa_next s0 <= source e' -> In e' (A_edges h) <-> exists e, In (e, Some e') pe).
  { intros e' Le. split.
    - intros I. apply (Permutation_in _ PT) in I. apply in_app_or in I. destruct I as [I|I]; [apply T0 in I; lia|]. assert (J : In (Some e') (map snd pe)) by (rewrite ET; apply in_map, I). apply in_map_iff in J. destruct J as ([e o] & Eo & J). cbn in Eo. subst o. eauto.
    - intros (e & I). apply (in_map snd) in I. cbn in I. rewrite ET in I. apply in_map_iff in I. destruct I as (x & [= ->] & I). apply (Permutation_in _ (Permutation_sym PT)), in_or_app. right. exact I. }
  assert (INJ : forall u v x, In (u, x) pv -> In (v, x) pv -> u = v).
  { intros u v x I J. apply (pv_inj b s0 (ACopying h pv pe done) u v x X2); cbn [ac_vertices]; apply In_dget; assumption. }
  assert (P1 : forall x w y, path (A_edges h) x w y -> forall u, In (u, x) pv -> exists v, In (v, y) pv /\ path (filter rel (A_edges g)) u w v).
  { intros x w y P. induction P as [x|x a y w z I P IH]; intros u Iu; [exists u; split; [exact Iu|constructor]|].
    apply HE in I; [|cbn; eapply PVge; exact Iu]. destruct I as (e & I). destruct (ENDS _ _ I) as (Z1 & Z2 & Z3). cbn in Z1, Z2, Z3. destruct (IH _ Z2) as (v & Iv & Pv). exists v. split; [exact Iv|].
    assert (Ie : In e (dkeys pe)) by (apply (in_map fst) in I; exact I). apply KE in Ie. destruct Ie as (Ie & _ & Er & Vr). assert (source e = u) by (apply (INJ _ _ x); assumption).
    econstructor; [|exact Pv]. apply filter_In. destruct e as [q r a']. cbn in *. subst. split; [exact Ie|]. unfold rel. cbn. rewrite Er, Vr. reflexivity. }
  assert (P2 : forall u w v, path (filter rel (A_edges g)) u w v -> forall x, In (u, x) pv -> exists y, In (v, y) pv /\ path (A_edges h) x w y).
  { intros u w v P. induction P as [u|u a r w v I P IH]; intros x Ix; [exists x; split; [exact Ix|constructor]|].
    apply filter_In in I. destruct I as [I Rl]. apply andb_true_iff in Rl. cbn in Rl.
    assert (Ke : In (Edge u r a) (dkeys pe)). { apply KE. cbn. split; [exact I|]. split; [apply KV; apply (in_map fst) in Ix; exact Ix|exact Rl]. }
    apply in_map_iff in Ke. destruct Ke as ([e o] & Eo & J). cbn in Eo. subst e. destruct o as [[x' y' a']|]; [|exfalso; exact (X6 _ _ J eq_refl)]. destruct (ENDS _ _ J) as (Z1 & Z2 & Z3). cbn in *.
    assert (x' = x). { apply In_dget in Z1, Ix; try assumption. congruence. } subst x' a'. destruct (IH _ Z2) as (z & Iz & Pz). exists z. split; [exact Iz|]. econstructor; [apply HE; [cbn; eapply PVge; exact Ix|eexists; exact J]|exact Pz]. }
  pose proof (A_step _ _ (ASetInitial (Some (au_last g0)) true) RH) as [RI _]. cbn [A_call aa_step fst] in RI.
  intros w. rewrite (accepts_path _ _ RI). change (A_edges (A_set_initial h (Some (au_last g0)) true)) with (A_edges h). split.
  - intros (q & y & Eq & P & Fy). injection Eq as <-. destruct (P1 _ _ _ P s I0) as (v & Iv & Pv). exists v, y. split; [exact Pv|]. split; [exact Iv|].
    change (A_is_final h y = true) in Fy. rewrite (FIN _ _ Iv) in Fy. apply orb_true_iff, Fy.
  - intros (v & y & Pv & Iv & Bv). destruct (P2 _ _ _ Pv (au_last g0) I0) as (y' & Iy & Py). assert (y' = y). { apply In_dget in Iy, Iv; try assumption. congruence. } subst y'.
    exists (au_last g0), y. split; [reflexivity|]. split; [exact Py|]. change (A_is_final h y = true). rewrite (FIN _ _ Iy). apply orb_true_iff, Bv.
Qed.
(** C78, with the maps given: the copy is isomorphic to the part of [g] that is reached from [s] by relevant transitions. [b]: the final states that
    the callback sets. *)
Theorem C78_automaton_copy_partial : forall (A : Type) (EA : EqDec A) n (ops : list (aop A)) (vrelevant : nat -> bool) (erelevant : edge A -> bool)
    (cb : option (nat -> nat -> aut A -> aut A)) (b : nat -> bool) s,
  (forall u u' h, match cb with None => h | Some f => f u u' h end = if b u then A_set_final h u' true else h) ->
  let g := fst (runs A_call (A_init n) ops) in
  let reached := steps (fun u v => exists e, In e (A_edges g) /\ source e = u /\ target e = v /\ erelevant e = true /\ vrelevant v = true) s in
  exists h pv pe done bound,
    (forall fuel, bound <= fuel -> automaton_copy g vrelevant erelevant cb fuel s (A_init 0) (Some []) (Some []) = Some (Ok (ACopying h pv pe done))) /\
    (NoDup (map fst pv) /\ forall v, In v (map fst pv) <-> reached v) /\
    (NoDup (A_vertices h) /\ map snd pv = A_vertices h /\ In (s, 0) pv /\ A_initial h = Some 0) /\
    (NoDup (map fst pe) /\ forall e, In e (map fst pe) <-> In e (A_edges g) /\ reached (source e) /\ erelevant e = true /\ vrelevant (target e) = true) /\
    (NoDup (A_edges h) /\ Permutation (map snd pe) (map Some (A_edges h))) /\
    (forall e e', In (e, Some e') pe -> In (source e, source e') pv /\ In (target e, target e') pv /\ distinguisher e' = distinguisher e) /\
    (forall u u', In (u, u') pv -> A_is_final h u' = b u) /\
    (forall w, A_accepts h w = true <-> exists r, path (filter (fun e => erelevant e && vrelevant (target e)) (A_edges g)) s w r /\ b r = true).
Proof.
  intros A EA n ops vrelevant erelevant cb b s CB g reached.
  destruct (automaton_copy_into A EA n ops 0 [] vrelevant erelevant cb b s CB) as (h & pv & pe & done & k & H1 & H2 & (H3 & HV & HS & HQ) & H4 & (H5 & T & HT & HP) & H6 & H7 & _ & H8).
  cbn [runs fst] in *. change (au_last (A_init 0)) with 0 in *. change (A_vertices (A_init 0)) with (@nil nat) in HV. change (A_edges (A_init 0)) with (@nil (edge A)) in HP. cbn [app] in *.
  exists h, pv, pe, done, k. split; [exact H1|]. split; [exact H2|]. split; [auto|]. split; [exact H4|]. split; [split; [exact H5|rewrite HT; apply Permutation_map; symmetry; exact HP]|]. split; [exact H6|].
  split; [intros u u' I; rewrite (H7 u u' I); apply orb_false_r|].
  intros w. replace (A_accepts h w) with (A_accepts (A_set_initial h (Some 0) true) w).
  - rewrite H8. split.
    + intros (r & y & P & _ & [B|B]); [exists r; auto|discriminate B].
    + intros (r & P & B). assert (M : reached r).
      { unfold reached. clear -P. induction P as [q|q a v w t I _ IH]; [constructor|]. apply filter_In in I. destruct I as [I1 I2]. apply andb_true_iff in I2.
        apply steps_step with v; [exists (Edge q v a); intuition|exact IH]. }
      apply H2 in M. apply in_map_iff in M. destruct M as ([r' y] & E & M). cbn in E. subst r'. exists r, y. auto.
  - f_equal. unfold A_set_initial, A_initial in *. destruct h. cbn in *. congruence.
Qed.
Print Assumptions C78_default_maps_never.
Print Assumptions C78_finals_refuted.
Print Assumptions C78_automaton_copy_partial.

(** With a callback that copies the final flag, and every state and transition relevant, the copy accepts the words that [g] accepts from [s]. *)
Theorem C78_language_partial : forall (A : Type) (EA : EqDec A) n (ops : list (aop A)) s, let g := fst (runs A_call (A_init n) ops) in
  exists h pv pe done bound, (forall fuel, bound <= fuel ->
      automaton_copy g (fun _ => true) (fun _ => true) (Some (fun u u' h => if A_is_final g u then A_set_final h u' true else h)) fuel s (A_init 0) (Some []) (Some []) = Some (Ok (ACopying h pv pe done))) /\
    (forall w, A_accepts h w = true <-> exists r, path (A_edges g) s w r /\ A_is_final g r = true).
Proof.
  intros A EA n ops s g.
  destruct (C78_automaton_copy_partial A EA n ops (fun _ => true) (fun _ => true) (Some (fun u u' h => if A_is_final g u then A_set_final h u' true else h)) (A_is_final g) s) as (h & pv & pe & done & k & H1 & _ & _ & _ & _ & _ & _ & HL); [reflexivity|].
  exists h, pv, pe, done, k. split; [exact H1|]. intros w. rewrite HL. fold g. rewrite filter_id by reflexivity. reflexivity.
Qed.
Print Assumptions C78_language_partial.

(** from state 1, without the state 3 *)
Example C78_example : let g := fst (runs A_call (A_init 4) [AAddEdge 1 2 7; AAddEdge 2 1 8; AAddEdge 1 3 9; AAddEdge 0 1 5; ASetFinal 2 true]) in
  match automaton_copy g (fun v => negb (v =? 3)) (fun _ => true) (Some (fun u u' h => if A_is_final g u then A_set_final h u' true else h)) 40 1 (A_init 0) (Some []) (Some []) with
  | Some (Ok st) => ac_vertices st = [(1, 0); (2, 1)] /\ A_edges (ac_dup st) = [Edge 0 1 7; Edge 1 0 8] /\ A_accepts (ac_dup st) [7; 8; 7] = true
  | _ => False
  end.
Proof. vm_compute. auto. Qed.
