(** Properties C76, C77: NodeAutomaton and make_node_automaton. *)
From Verif Require Import Graph GraphProofs Automaton AutomatonSpec AutomatonProofs AutomatonProofs3 NodeAut NodeAutSpec NodeAutProofs NodeAutProofs2 Base BaseProofs.

(** C76 as stated is false. An edge that does not exist (0, 2) is removed: the transition (0, 1) with the same symbol disappears. *)
Theorem C76_remove_edge_refuted : exists (ops : list (nvop nat)) e, let g := fst (runs NA_call (NA_init_n 0) ops) in
  nv_disciplined (nv_init 0) ops /\ NA_edges g = [Edge 0 1 (Some 7)] /\ ~ In e (NA_edges g) /\ NA_edges (NA_remove_edge g e) = [].
Proof.
  exists [VAddVertex None; VAddVertex (Some 7); VAddVertex (Some 7); VAddEdge 0 1], (Edge 0 2 (Some 7)). vm_compute. intuition auto. discriminate.
Qed.
(** After clear(), the vertices that are added have the symbols (and the final flags) of the old ones. *)
Theorem C76_clear_refuted : exists (ops : list (nvop nat)), let g := fst (runs NA_call (NA_init_n 0) (ops ++ [VClear; VAddVertex None; VAddVertex None])) in
  NA_vertices g = [0; 1] /\ na_symbol g 1 = Some 7 /\ na_final g 1 = true.
Proof. exists [VAddVertex None; VAddVertex (Some 7); VSetFinal 1 true]. vm_compute. auto. Qed.
(** An edge whose target is created after it keeps the label None: it is not the symbol of its target, and remove_vertex leaves it in place. *)
Theorem C76_dangling_refuted : exists (ops : list (nvop nat)), let g := fst (runs NA_call (NA_init_n 0) ops) in
  exists e, In e (NA_edges g) /\ distinguisher e <> na_symbol g (target e) /\
    snd (NA_remove_vertex g (target e)) = Ok tt /\ In e (NA_edges (fst (NA_remove_vertex g (target e)))).
Proof. exists [VAddVertex None; VAddEdge 0 1; VAddVertex (Some 7)]. exists (Edge 0 1 None). vm_compute. intuition auto. discriminate. Qed.
(** alphabet() is not the set of the labels of the transitions: the symbol of the initial state is left out, and those of the states without
    entering transition are in. *)
Theorem C76_alphabet_refuted : exists (ops : list (nvop nat)), let g := fst (runs NA_call (NA_init_n 0) ops) in
  nv_disciplined (nv_init 0) ops /\ map distinguisher (NA_edges g) = [Some 5] /\ NA_alphabet g = [Some 7].
Proof. exists [VAddVertex (Some 5); VAddVertex (Some 7); VAddEdge 0 0]. vm_compute. intuition auto. Qed.
(** accepts(w) raises KeyError on the empty automaton. *)
Theorem C76_accepts_refuted : exists w : list nat, NA_accepts (NA_init_n 0) w = Raise KeyError.
Proof. exists [7]. vm_compute. reflexivity. Qed.

(** C76, exactly: as long as the targets of the added edges exist, a NodeAutomaton behaves as the machine [nv_step] on every history: same
    results, same vertices, transitions, symbols, initial and final states; and the words that it accepts label the paths of its transitions. *)
Theorem C76_node_automaton_partial : forall (A : Type) (EA : EqDec A) n (ops : list (nvop A)), nv_disciplined (nv_init n) ops ->
  let g := fst (runs NA_call (NA_init_n n) ops) in
  let s := fst (runs nv_step (nv_init n) ops) in
  snd (runs NA_call (NA_init_n n) ops) = snd (runs nv_step (nv_init n) ops) /\
  NA_vertices g = nv_V s /\ Permutation (NA_edges g) (nv_T s) /\ na_q0 g = nv_q0 s /\ (forall q, na_final g q = nv_final s q) /\ (forall q, na_symbol g q = nv_sym s q) /\
  (forall q, NA_out_edges g q = Raise KeyError /\ ~ In q (nv_V s) \/ exists l, NA_out_edges g q = Ok l /\ In q (nv_V s) /\ Permutation l (filter (fun e => source e =? q) (nv_T s))) /\
  (forall q a, NA_delta g q a = if mem q (nv_V s) then Ok (lookup (nv_T s) q a) else Raise KeyError) /\
  (forall q r, NA_edge g q r = let e := Edge q r (nv_sym s r) in if mem e (nv_T s) then (Some e, true) else (None, false)) /\
  (forall q a, In a (NA_sigma g (Some q)) <-> exists r, In (Edge q r a) (nv_T s)) /\
  (forall a, In a (NA_alphabet g) <-> exists q, In q (nv_V s) /\ nv_q0 s <> Some q /\ a = nv_sym s q) /\
  (forall e, In e (nv_T s) -> NA_label g e = distinguisher e /\ distinguisher e = nv_sym s (target e) /\ In (target e) (nv_V s)).
Proof.
  intros A EA n ops D g s. destruct (nvrep_runs ops _ _ (nvrep_init n) D) as [R E]. fold g s in R. split; [exact E|].
  destruct (nv_obs g s R) as (H1 & H2 & H3 & H4 & H5 & H6 & H7 & H8 & H9 & H10 & H11). repeat (split; [assumption|]). intros e I. split; [apply H11, I|]. apply R, I.
Qed.
Theorem C76_node_accepts_partial : forall (A : Type) (EA : EqDec A) n (ops : list (nvop A)) w, nv_disciplined (nv_init n) ops ->
  let g := fst (runs NA_call (NA_init_n n) ops) in
  match na_q0 g with
  | None => NA_accepts g w = Ok false
  | Some q0 => (In q0 (NA_vertices g) -> exists b, NA_accepts g w = Ok b /\ (b = true <-> exists r, path (NA_edges g) q0 (map Some w) r /\ na_final g r = true)) /\
               (~ In q0 (NA_vertices g) -> NA_accepts g w = match w with [] => Ok (na_final g q0) | _ => Raise KeyError end)
  end.
Proof.
  intros A EA n ops w D g. destruct (nvrep_runs ops _ _ (nvrep_init n) D) as [R _]. fold g in R. set (s := fst (runs nv_step _ _)) in R.
  pose proof (nv_accepts g s w R) as H. destruct (nv_obs g s R) as (H1 & H2 & H3 & H4 & _). rewrite H3, H1. destruct (nv_q0 s) as [q0|]; [|exact H].
  assert (EP : forall q w r, path (nv_T s) q w r <-> path (NA_edges g) q w r).
  { intros q w' r. split; intros P; induction P; econstructor; eauto; (eapply Permutation_in; [|eassumption]); [symmetry|]; exact H2. }
  split; intros I.
  - rewrite (proj2 (mem_spec _ _) I) in H. destruct H as (b & E & HB). exists b. split; [exact E|]. rewrite HB. split; intros (r & P & F); exists r; (split; [apply EP, P|]); [rewrite H4|rewrite <- H4]; exact F.
  - rewrite (proj2 (mem_false _ _) I) in H. rewrite H4. exact H.
Qed.
Print Assumptions C76_remove_edge_refuted.
Print Assumptions C76_clear_refuted.
Print Assumptions C76_dangling_refuted.
Print Assumptions C76_alphabet_refuted.
Print Assumptions C76_accepts_refuted.
Print Assumptions C76_node_automaton_partial.
Print Assumptions C76_node_accepts_partial.

Example C76_example :
  let ops := [VAddVertex (Some 5); VAddVertex (Some 7); VAddEdge 0 1; VAddEdge 1 0; VAddVertex (Some 7); VAddEdge 0 2; VAddEdge 1 2; VAddEdge 2 0;
              VRemoveEdge (Edge 2 0 (Some 5)); VSetFinal 2 true; VRemoveVertex 0; VSetInitial (Some 1) true] in
  nv_disciplined (nv_init 0) ops /\ snd (runs NA_call (NA_init_n 0) ops) =
    [AOutVertex 0; AOutVertex 1; AOutEdge (Some (Edge 0 1 (Some 7))) true; AOutEdge (Some (Edge 1 0 (Some 5))) true; AOutVertex 2; AOutEdge None false;
     AOutEdge (Some (Edge 1 2 (Some 7))) true; AOutEdge (Some (Edge 2 0 (Some 5))) true; AOutUnit; AOutUnit; AOutUnit; AOutUnit] /\
  let g := fst (runs NA_call (NA_init_n 0) ops) in NA_edges g = [Edge 1 2 (Some 7)] /\ NA_accepts g [7] = Ok true /\ NA_accepts g [7; 7] = Ok false.
Proof. vm_compute. intuition auto. Qed.

(** C77 as stated is false: pmap_vfinal is read at the vertex descriptors, not at the names. The example of the docstring (the names "root" and
    "sink" are the numbers 10 and 20 here): the state sink is named final, and no state is. *)
Theorem C77_finals_refuted : exists (tr : list (nat * nat)) label q0n (final_names : nat -> bool),
  In (10, 20) tr /\ final_names 20 = true /\
  match make_node_automaton (fun l => l) tr (Some label) q0n (fun k => match k with ByName x => final_names x | ByDescriptor q => final_names q end) with
  | Ok g => NA_vertices g = [0; 1] /\ NA_delta g 0 (Some 2) = Ok (Some 1) /\ na_final g 0 = false /\ na_final g 1 = false /\ NA_accepts g [2] = Ok false
  | Raise _ => False
  end.
Proof. exists [(10, 20); (10, 20)], (fun x => if x =? 10 then Some 1 else Some 2), 10, (fun x => x =? 20). vm_compute. auto 10. Qed.
(** The default value of pmap_vlabel is of no use when there is a transition. *)
Theorem C77_default_refuted : exists (tr : list (nat * nat)) q0n (fin : key nat -> bool), make_node_automaton (A := nat) (fun l => l) tr None q0n fin = Raise TypeError.
Proof. exists [(0, 1)], 0, (fun _ => false). vm_compute. reflexivity. Qed.
(** Of two transitions to states with the same symbol, the second one is lost without notice. *)
Theorem C77_transitions_refuted : exists (tr : list (nat * nat)) label q0n,
  In (0, 1) tr /\ In (0, 2) tr /\
  match make_node_automaton (fun l => l) tr (Some label) q0n (fun _ => false) with Ok g => NA_vertices g = [0; 1; 2] /\ NA_edges g = [Edge 0 1 (Some 7)] | Raise _ => False end.
Proof. exists [(0, 1); (0, 2)], (fun _ => Some 7), 0. vm_compute. auto 10. Qed.

(** C77, exactly: one state per name, with the symbol of the name; the first listed transition for each source and symbol; the named initial
    state; and the final flags of the descriptors. *)
Theorem C77_make_node_automaton_partial : forall (A N : Type) (EA : EqDec A) (EN : EqDec N) sorted (tr : list (N * N)) label q0n (fin : key N -> bool),
  (forall l, Permutation (sorted l) l) ->
  let names := node_names sorted tr in
  NoDup names /\ (forall x, In x names <-> exists y, In (x, y) tr \/ In (y, x) tr) /\
  (tr = [] \/ In q0n names -> exists g, make_node_automaton sorted tr (Some label) q0n fin = Ok g /\
    NA_vertices g = seq 0 (length names) /\ NoDup (NA_edges g) /\
    (forall q, na_symbol g q = match nth_error names q with Some qn => label qn | None => None end) /\
    (forall q, na_final g q = match nth_error names q with Some _ => fin (ByDescriptor q) | None => false end) /\
    (tr <> [] -> exists q0, na_q0 g = Some q0 /\ nth_error names q0 = Some q0n) /\
    (forall q r a, In (Edge q r a) (NA_edges g) <-> exists qn rn, nth_error names q = Some qn /\ nth_error names r = Some rn /\ a = label rn /\
       exists p1 p2, tr = p1 ++ (qn, rn) :: p2 /\ forall rn', In (qn, rn') p1 -> label rn' <> label rn)) /\
  (tr <> [] -> ~ In q0n names -> make_node_automaton sorted tr (Some label) q0n fin = Raise KeyError).
Proof.
  intros A N EA EN sorted tr label q0n fin HP names. destruct (node_names_spec sorted tr HP) as [ND HN]. fold names in ND, HN. split; [exact ND|]. split; [exact HN|].
  pose proof (make_node_automaton_spec label fin sorted tr q0n HP) as H. cbv zeta in H. fold names in H. destruct (make_node_automaton sorted tr (Some label) q0n fin) as [g|ex].
  - destruct H as (H0 & T & sym & f & R & HS & HF & HT). split.
    + intros _. exists g. split; [reflexivity|]. destruct (nv_obs g _ R) as (O1 & O2 & O3 & O4 & O5 & _). cbn [nv_V nv_T nv_q0 nv_final nv_sym] in *. split; [exact O1|].
      split. { eapply Permutation_NoDup; [symmetry; exact O2|]. destruct R as ((_ & _ & _ & (NT & _) & _) & _). exact NT. }
      split. { intros q. rewrite O5, HS. reflexivity. }
      split. { intros q. rewrite O4, HF. destruct (nth_error names q) as [qn|] eqn:Q.
        - assert (q < length names) by (apply nth_error_Some; congruence). rewrite (proj2 (Nat.ltb_lt _ _)) by assumption. reflexivity.
        - apply nth_error_None in Q. rewrite (proj2 (Nat.ltb_ge _ _)) by exact Q. reflexivity. }
      split. { intros NE. rewrite O3. destruct H0 as [->|[q0 E]]; [congruence|]. exists q0. rewrite E. assert (X : nth_error names q0 = Some q0n) by (apply (index_of_spec _ _ _ ND), E).
        split; [|exact X]. destruct (length names) eqn:L; [|reflexivity]. assert (q0 < length names) by (apply nth_error_Some; congruence). lia. }
      intros q r a. rewrite <- (HT q r a). split; apply Permutation_in; [|symmetry]; exact O2.
    + intros NE NI. destruct H0 as [->|[q0 E]]; [congruence|]. exfalso. apply NI. apply (index_of_spec _ _ _ ND) in E. eapply nth_error_In. exact E.
  - destruct H as (NE & E & ->). split; [|reflexivity]. intros [->|I]; [congruence|]. destruct (index_of_In names q0n I) as [i Ei]. congruence.
Qed.

(** Its language, when every source has at most one target per symbol, every name has a symbol, and pmap_vfinal gives at each descriptor what is
    expected of the name. *)
Theorem C77_make_node_language_partial : forall (A N : Type) (EA : EqDec A) (EN : EqDec N) sorted (tr : list (N * N)) (label : N -> A) q0n (fin : key N -> bool) (final_name : N -> bool) g w,
  (forall l, Permutation (sorted l) l) ->
  (forall q r r', In (q, r) tr -> In (q, r') tr -> label r = label r' -> r = r') ->
  (forall i qn, nth_error (node_names sorted tr) i = Some qn -> fin (ByDescriptor i) = final_name qn) ->
  tr <> [] -> make_node_automaton sorted tr (Some (fun x => Some (label x))) q0n fin = Ok g ->
  exists b, NA_accepts g w = Ok b /\ (b = true <-> exists rn, npath (map (fun '(q, r) => (q, r, label r)) tr) q0n w rn /\ final_name rn = true).
Proof.
  intros A N EA EN sorted tr label q0n fin final_name g w HP HD HFn NE E. set (lab := fun x => Some (label x)) in *. set (names := node_names sorted tr) in *.
  destruct (node_names_spec sorted tr HP) as [ND HN]. fold names in ND, HN.
  pose proof (make_node_automaton_spec lab fin sorted tr q0n HP) as H. cbv zeta in H. fold names in H. rewrite E in H. destruct H as (H0 & T & sym & f & R & HS & HF & HT).
  destruct H0 as [->|[q0 Eq]]; [congruence|]. assert (Nq0 : nth_error names q0 = Some q0n) by (apply (index_of_spec _ _ _ ND), Eq).
  assert (L0 : q0 < length names) by (apply nth_error_Some; congruence).
  pose proof (nv_accepts g _ w R) as HA. cbn [nv_q0 nv_V nv_T nv_final] in HA. destruct (length names =? 0) eqn:L; [apply Nat.eqb_eq in L; lia|]. rewrite Eq in HA.
  rewrite (proj2 (mem_spec q0 (seq 0 (length names)))) in HA by (apply in_seq; lia). destruct HA as (b & EA' & HB). exists b. split; [exact EA'|]. rewrite HB.
  assert (HI : forall q r a, In (Edge q r a) T <-> exists qn rn, nth_error names q = Some qn /\ nth_error names r = Some rn /\ a = Some (label rn) /\ In (qn, rn) tr).
  { intros q r a. rewrite HT. split; intros (qn & rn & X1 & X2 & X3 & X4); exists qn, rn; repeat split; try assumption.
    - destruct X4 as (p1 & p2 & -> & _). apply in_app_iff. right. left. reflexivity.
    - destruct (first_listed_ex lab tr qn rn X4) as (rn' & F & EL). assert (rn' = rn) as <-; [|exact F]. destruct F as (p1 & p2 & -> & _). apply (HD qn); [apply in_app_iff; right; left; reflexivity|exact X4|]. unfold lab in EL. congruence. }
  assert (P1 : forall w q r, path T q (map Some w) r -> forall qn, nth_error names q = Some qn -> exists rn, nth_error names r = Some rn /\ npath (map (fun '(q, r) => (q, r, label r)) tr) qn w rn).
  { clear w HB EA'. induction w as [|a w IH]; intros q r P qn Eqn; inversion P as [|? ? r' ? ? I P']; subst.
    - exists qn. split; [exact Eqn|constructor].
    - apply HI in I. destruct I as (qn' & rn' & X1 & X2 & X3 & X4). destruct (IH _ _ P' _ X2) as (tn & Z & P2). exists tn. split; [exact Z|]. econstructor; [|exact P2].
      apply in_map_iff. exists (qn, rn'). assert (qn' = qn) by congruence. subst qn'. injection X3 as ->. split; [reflexivity|exact X4]. }
  assert (P2 : forall qn w rn, npath (map (fun '(q, r) => (q, r, label r)) tr) qn w rn -> forall q, nth_error names q = Some qn -> exists r, nth_error names r = Some rn /\ path T q (map Some w) r).
  { intros qn w' rn P. induction P as [qn|qn a rn w' tn I P IH]; intros q Eqn.
    - exists q. split; [exact Eqn|constructor].
    - apply in_map_iff in I. destruct I as ([x y] & [= -> -> <-] & I). assert (In rn names) as Ir by (apply HN; exists qn; right; exact I).
      apply In_nth_error in Ir. destruct Ir as (r & Er). destruct (IH _ Er) as (t & Z & P'). exists t. split; [exact Z|]. cbn [map]. econstructor; [|exact P']. apply HI. exists qn, rn. auto. }
  assert (FN : forall r rn, nth_error names r = Some rn -> f r = final_name rn).
  { intros r rn Er. rewrite HF. assert (r < length names) by (apply nth_error_Some; congruence). rewrite (proj2 (Nat.ltb_lt _ _)) by assumption. apply HFn, Er. }
  split.
  - intros (r & P & Fr). destruct (P1 _ _ _ P _ Nq0) as (rn & Er & P'). exists rn. split; [exact P'|]. rewrite <- (FN r rn Er). exact Fr.
  - intros (rn & P & Fr). destruct (P2 _ _ _ P _ Nq0) as (r & Er & P'). exists r. split; [exact P'|]. rewrite (FN r rn Er). exact Fr.
Qed.
Print Assumptions C77_finals_refuted.
Print Assumptions C77_default_refuted.
Print Assumptions C77_transitions_refuted.
Print Assumptions C77_make_node_automaton_partial.
Print Assumptions C77_make_node_language_partial.

Example C77_example :
  let tr : list (nat * nat) := [(20, 10); (10, 20); (20, 30); (20, 10)] in
  let label := fun x => Some (x + 1) in
  node_names (N := nat) (fun l => l) tr = [20; 10; 30] /\
  (* the automaton accepts 21 31 from the state 10 *)
  match make_node_automaton (fun l => l) tr (Some label) 10 (fun k => match k with ByDescriptor 2 => true | _ => false end) with
  | Ok g => NA_edges g = [Edge 0 1 (Some 11); Edge 0 2 (Some 31); Edge 1 0 (Some 21)] /\ na_q0 g = Some 1 /\ NA_accepts g [21; 31] = Ok true /\ NA_accepts g [21; 11] = Ok false
  | Raise _ => False
  end.
Proof. vm_compute. auto 10. Qed.
