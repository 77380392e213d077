(** Properties C102, C103: make_incidence_automaton, make_incidence_node_automaton (and make_automaton on any list). *)
From Verif Require Import Graph GraphProofs Automaton AutomatonSpec AutomatonProofs AutomatonProofs2 AutomatonProofs3 NodeAut NodeAutSpec NodeAutProofs NodeAutProofs2 IncMake IncMakeSpec IncMakeProofs IncMakeProofs2 Base BaseProofs.

(** C102 as stated is false: an in-edge that is not an edge ... *)
Theorem C102_transpose_refuted : exists (tr : list (nat * nat * nat)) e,
  match make_incidence_automaton (fun l => l) tr 0 (fun _ => false) with
  | Ok g => In e (IA_in_edges g (target e)) /\ ~ In e (IA_edges g)
  | Raise _ => False
  end.
Proof. exists [(0, 0, 7); (0, 1, 7)], (Edge 0 0 7). vm_compute. split; [auto|]. intros [X|[]]. discriminate X. Qed.
Print Assumptions C102_transpose_refuted.
(** ... and the target that is kept is not always the first that is listed. *)
Theorem C102_first_listed_refuted : exists (tr : list (nat * nat * nat)),
  hd_error (targets tr 0 7) = Some 0 /\
  match make_automaton (fun l => l) tr 0 (fun _ => false) with
  | Ok g => A_edges g = [Edge 0 1 7]
  | Raise _ => False
  end.
Proof. exists [(0, 0, 7); (0, 1, 7)]. vm_compute. auto. Qed.
Print Assumptions C102_first_listed_refuted.

(** make_automaton on any list of transitions: per source and symbol, the first listed target other than the first name
    in the sorted order is kept, and the first name when no other one is listed. *)
Theorem C102_make_automaton_partial : forall (A N : Type) (EA : EqDec A) (EN : EqDec N) sorted (tr : list (N * N * A)) q0n fin,
  (forall l, Permutation (sorted l) l) ->
  let names := vertex_names sorted tr in
  match make_automaton sorted tr q0n fin with
  | Raise e => e = KeyError /\ tr <> [] /\ ~ In q0n names
  | Ok g => (tr = [] \/ In q0n names) /\ A_vertices g = seq 0 (length names) /\ NoDup (A_edges g) /\
      (tr <> [] -> exists q0, A_initial g = Some q0 /\ nth_error names q0 = Some q0n) /\
      (forall q, A_is_final g q = match nth_error names q with Some qn => fin qn | None => false end) /\
      (forall q r a, In (Edge q r a) (A_edges g) <->
         exists qn rn, nth_error names q = Some qn /\ nth_error names r = Some rn /\ kept (hd_error names) (targets tr qn a) = Some rn)
  end.
Proof.
  intros A N EA EN sorted tr q0n fin HP names. destruct (imake_spec sorted tr q0n fin HP) as (m & _ & _ & _ & H). fold names in H.
  destruct (make_automaton sorted tr q0n fin) as [g|e]; [|exact H]. destruct H as (H1 & H2 & W & H3 & H4 & H5).
  split; [exact H1|]. split; [exact H2|]. change (A_edges g) with (tedges (au_adj g)). split; [apply NoDup_tedges; exact W|]. split; [exact H3|]. split; [exact H4|].
  intros q r a. rewrite (In_tedges _ _ _ _ W). apply H5.
Qed.
Print Assumptions C102_make_automaton_partial.

(** make_incidence_automaton raises when make_automaton raises and otherwise returns the same automaton; [in_edges] has the
    edges, and the transitions to the first name that were listed first and replaced. *)
Theorem C102_make_incidence_automaton_partial : forall (A N : Type) (EA : EqDec A) (EN : EqDec N) sorted (tr : list (N * N * A)) q0n fin,
  (forall l, Permutation (sorted l) l) ->
  let names := vertex_names sorted tr in
  match make_automaton sorted tr q0n fin, make_incidence_automaton sorted tr q0n fin with
  | Raise e, Raise e' => e = e'
  | Ok g, Ok ig => ia_base ig = g /\
      (forall r, NoDup (IA_in_edges ig r)) /\
      (forall q r r' a, In (Edge q r' a) (IA_in_edges ig r) <-> r' = r /\
         (In (Edge q r a) (A_edges g) \/
          r = 0 /\ exists qn rn, nth_error names q = Some qn /\ nth_error names 0 = Some rn /\ hd_error (targets tr qn a) = Some rn))
  | _, _ => False
  end.
Proof.
  intros A N EA EN sorted tr q0n fin HP names. destruct (imake_spec sorted tr q0n fin HP) as (m & Wm & E & L & H). fold names in H, L. rewrite E.
  destruct (make_automaton sorted tr q0n fin) as [g|e]; [|reflexivity]. destruct H as (H1 & H2 & W & H3 & H4 & H5).
  split; [reflexivity|]. split; [intros r; apply NoDup_in_edges; exact Wm|]. intros q r r' a. rewrite In_in_edges by exact Wm. cbn [ia_in]. rewrite L.
  change (A_edges g) with (tedges (au_adj g)). rewrite (In_tedges _ _ _ _ W), H5. split.
  - intros [-> (qn & rn & X & Y & [Z|[-> Z]])]; split; try reflexivity; [left; eauto|right; split; [reflexivity|]; eauto].
  - intros [-> [(qn & rn & X & Y & Z)|(-> & qn & rn & X & Y & Z)]]; split; try reflexivity; exists qn, rn; auto.
Qed.
Print Assumptions C102_make_incidence_automaton_partial.

(** The lists for which [in_edges] is the transpose of [edges]: those where a source and symbol whose first target is the
    first name have no other target. *)
Theorem C102_transpose_iff_partial : forall (A N : Type) (EA : EqDec A) (EN : EqDec N) sorted (tr : list (N * N * A)) q0n fin ig,
  (forall l, Permutation (sorted l) l) ->
  make_incidence_automaton sorted tr q0n fin = Ok ig ->
  ((forall r, Permutation (IA_in_edges ig r) (filter (fun e => target e =? r) (IA_edges ig))) <->
   (forall q a t, hd_error (targets tr q a) = hd_error (vertex_names sorted tr) -> In (q, t, a) tr -> Some t = hd_error (vertex_names sorted tr))).
Proof.
  intros A N EA EN sorted tr q0n fin ig HP E.
  pose proof (C102_make_incidence_automaton_partial _ _ _ _ sorted tr q0n fin HP) as H. cbv zeta in H. rewrite E in H.
  pose proof (C102_make_automaton_partial _ _ _ _ sorted tr q0n fin HP) as H'. cbv zeta in H'.
  destruct (make_automaton sorted tr q0n fin) as [g|e]; [|destruct H]. destruct H as (Eb & D & HI). destruct H' as (_ & _ & NE & _ & _ & HE).
  destruct (vertex_names_spec sorted tr HP) as [ND HN]. set (names := vertex_names sorted tr) in *. unfold IA_edges. rewrite Eb.
  assert (N0 : forall x, nth_error names 0 = Some x <-> hd_error names = Some x) by (intros x; destruct names; reflexivity).
  split.
  - intros HT q a t Hh It. destruct (hd_error names) as [n0|] eqn:E0.
    2:{ destruct (targets tr q a) as [|x xs] eqn:Et; [|discriminate]. apply In_targets in It. rewrite Et in It. destruct It. }
    assert (Iq : In q names) by (apply HN; eauto). apply In_nth_error in Iq. destruct Iq as (i & Ei).
    assert (X : In (Edge i 0 a) (IA_in_edges ig 0)). { apply HI. split; [reflexivity|]. right. split; [reflexivity|]. exists q, n0. split; [exact Ei|]. split; [apply N0; reflexivity|exact Hh]. }
    apply (Permutation_in _ (HT 0)) in X. apply filter_In in X. destruct X as [X _]. apply HE in X. destruct X as (q' & n' & Y1 & Y2 & Y3). rewrite ?E0 in Y3. assert (q' = q) by congruence. subst q'. apply N0 in Y2. injection Y2 as <-.
    destruct (BaseProofs.eqb_spec (Some t) (Some n0)) as [Z|Z]; [exact Z|]. exfalso. unfold kept in Y3. destruct (find _ (targets tr q a)) as [x|] eqn:F.
    + injection Y3 as ->. apply find_some in F. destruct F as [_ F]. rewrite eqb_refl in F. discriminate.
    + apply In_targets in It. pose proof (find_none _ _ F t It) as G. cbn beta in G. destruct (BaseProofs.eqb_spec (Some t) (Some n0)); [contradiction|discriminate].
  - intros HC r. apply NoDup_Permutation; [apply D|apply NoDup_filter; exact NE|]. intros [q r' a]. rewrite HI, filter_In. cbn [target]. split.
    + intros [-> [X|(-> & qn & rn & X & Y & Z)]]; [split; [exact X|apply Nat.eqb_refl]|]. split; [|reflexivity]. apply HE. exists qn, rn. split; [exact X|]. split; [exact Y|].
      apply (proj1 (N0 _)) in Y. unfold kept. destruct (find _ (targets tr qn a)) as [x|] eqn:F; [|exact Z]. apply find_some in F. destruct F as [I F]. apply In_targets in I.
      assert (Zh : hd_error (targets tr qn a) = hd_error names) by congruence. rewrite <- (HC qn a x Zh I) in F. rewrite eqb_refl in F. discriminate.
    + intros [X Y]. apply Nat.eqb_eq in Y. subst r'. auto.
Qed.
Print Assumptions C102_transpose_iff_partial.
(** in particular, a list with one target per source and symbol *)
Theorem C102_deterministic_partial : forall (A N : Type) (EA : EqDec A) (EN : EqDec N) sorted (tr : list (N * N * A)) q0n fin ig,
  (forall l, Permutation (sorted l) l) ->
  (forall q r r' a, In (q, r, a) tr -> In (q, r', a) tr -> r = r') ->
  make_incidence_automaton sorted tr q0n fin = Ok ig ->
  make_automaton sorted tr q0n fin = Ok (ia_base ig) /\
  forall r, Permutation (IA_in_edges ig r) (filter (fun e => target e =? r) (IA_edges ig)).
Proof.
  intros A N EA EN sorted tr q0n fin ig HP HD E. split.
  - pose proof (C102_make_incidence_automaton_partial _ _ _ _ sorted tr q0n fin HP) as H. cbv zeta in H. rewrite E in H. destruct (make_automaton sorted tr q0n fin) as [g|e]; [|destruct H]. f_equal. symmetry. apply H.
  - apply (C102_transpose_iff_partial _ _ _ _ sorted tr q0n fin ig HP E). intros q a t Hh It. rewrite <- Hh. pose proof It as It'. apply In_targets in It'.
    destruct (targets tr q a) as [|x xs] eqn:Et; [destruct It'|]. cbn [hd_error]. f_equal. apply (HD q t x a It). apply In_targets. rewrite Et. left. reflexivity.
Qed.
Print Assumptions C102_deterministic_partial.
Example C102_nontrivial :
  let tr := [(20, 10, 1); (10, 20, 2); (20, 30, 3); (20, 10, 1); (10, 30, 2); (30, 20, 1); (30, 10, 1)] in
  vertex_names (fun l => l) tr = [20; 10; 30] /\ kept (Some 20) (targets tr 10 2) = Some 30 /\ kept (Some 20) (targets tr 20 1) = Some 10 /\
  match make_incidence_automaton (fun l => l) tr 10 (fun x => x =? 30) with
  | Ok g => IA_edges g = [Edge 0 1 1; Edge 0 2 3; Edge 1 2 2; Edge 2 1 1] /\ IA_in_edges g 0 = [Edge 1 0 2; Edge 2 0 1] /\
            IA_in_edges g 1 = [Edge 0 1 1; Edge 2 1 1] /\ A_finals (ia_base g) = [2]
  | Raise _ => False
  end.
Proof. vm_compute. auto 10. Qed.

(** C103: make_incidence_node_automaton returns the automaton of make_node_automaton (its fields but for the predecessors), or
    raises what it raises; and [in_edges] is the transpose of [edges]. *)
Theorem C103_make_incidence_node_automaton : forall (A N : Type) (EA : EqDec A) (EN : EqDec N) sorted (tr : list (N * N)) (label : option (N -> option A)) q0n (fin : key N -> bool),
  match make_node_automaton sorted tr label q0n fin, make_incidence_node_automaton sorted tr label q0n fin with
  | Raise e, Raise e' => e = e'
  | Ok g, Ok ig =>
      NA_vertices ig = NA_vertices g /\ NA_edges ig = NA_edges g /\ (forall q, NA_out_edges ig q = NA_out_edges g q) /\
      na_symbol ig = na_symbol g /\ na_q0 ig = na_q0 g /\ na_final ig = na_final g /\ na_last ig = na_last g /\
      (forall r, Permutation (INA_in_edges ig r) (filter (fun e => target e =? r) (NA_edges g)))
  | _, _ => False
  end.
Proof.
  intros A N EA EN sorted tr label q0n fin. pose proof (imake_node_spec sorted tr label q0n fin) as H.
  destruct (make_incidence_node_automaton sorted tr label q0n fin) as [ig|ex].
  - destruct H as [-> P]. repeat (split; [reflexivity|]). intros r. apply (pinv_in_edges ig r P).
  - rewrite H. reflexivity.
Qed.
Print Assumptions C103_make_incidence_node_automaton.
(** The in-edges in terms of the list: the predecessors of a state are the sources that list it before any other target with
    the same symbol. *)
Theorem C103_in_edges : forall (A N : Type) (EA : EqDec A) (EN : EqDec N) sorted (tr : list (N * N)) (label : N -> option A) q0n (fin : key N -> bool) ig,
  (forall l, Permutation (sorted l) l) ->
  make_incidence_node_automaton sorted tr (Some label) q0n fin = Ok ig ->
  let names := node_names sorted tr in
  forall q r r' a, In (Edge q r' a) (INA_in_edges ig r) <-> r' = r /\ exists qn rn,
    nth_error names q = Some qn /\ nth_error names r = Some rn /\ a = label rn /\
    exists p1 p2, tr = p1 ++ (qn, rn) :: p2 /\ forall rn', In (qn, rn') p1 -> label rn' <> label rn.
Proof.
  intros A N EA EN sorted tr label q0n fin ig HP E names q r r' a.
  pose proof (C103_make_incidence_node_automaton _ _ _ _ sorted tr (Some label) q0n fin) as H. rewrite E in H.
  pose proof (make_node_automaton_spec label fin sorted tr q0n HP) as S. cbv zeta in S. fold names in S.
  destruct (make_node_automaton sorted tr (Some label) q0n fin) as [g|ex]; [|destruct H]. destruct H as (_ & _ & _ & _ & _ & _ & _ & H).
  destruct S as (_ & T & sym & f & R & _ & _ & HT). destruct (nv_obs g _ R) as (_ & O2 & _). cbn [nv_T] in O2.
  assert (X : In (Edge q r' a) (INA_in_edges ig r) <-> r' = r /\ In (Edge q r a) T).
  { split.
    - intros I. apply (Permutation_in _ (H r)) in I. apply filter_In in I. destruct I as [I J]. cbn in J. apply Nat.eqb_eq in J. subst r'. split; [reflexivity|]. eapply Permutation_in; [exact O2|exact I].
    - intros [-> I]. eapply Permutation_in; [symmetry; apply H|]. apply filter_In. split; [|apply Nat.eqb_refl]. eapply Permutation_in; [symmetry; exact O2|exact I]. }
  rewrite X, HT. reflexivity.
Qed.
Print Assumptions C103_in_edges.
Example C103_nontrivial :
  let tr := [(10, 20); (10, 30); (20, 30); (30, 20); (10, 40); (40, 40)] in
  let label := fun x => if x =? 40 then None else if x =? 10 then Some 1 else Some 2 in
  node_names (fun l => l) tr = [10; 20; 30; 40] /\
  match make_incidence_node_automaton (fun l => l) tr (Some label) 10 (fun _ => false) with
  | Ok g => NA_edges g = [Edge 0 1 (Some 2); Edge 0 3 None; Edge 1 2 (Some 2); Edge 2 1 (Some 2); Edge 3 3 None] /\
            INA_in_edges g 1 = [Edge 0 1 (Some 2); Edge 2 1 (Some 2)] /\ INA_in_edges g 3 = [Edge 0 3 None; Edge 3 3 None] /\ INA_in_edges g 2 = [Edge 1 2 (Some 2)]
  | Raise _ => False
  end.
Proof. vm_compute. auto 10. Qed.
