(** Theorems C91: parallel_breadth_first_search. *)
From Verif Require Import Graph GraphProofs Automaton AutomatonSpec AutomatonProofs PBFS PBFSProofs PBFSProofs2 ParBfs ParBfsSpec ParBfsProofs ParBfsProofs2 Base BaseProofs.
#[local] Arguments dkeys : simpl never.

Section T.
  Context {A : Type} {EA : EqDec A}.
  Variables g1 g2 : aut A.
  Variable ord : set_order A.
  Hypothesis VO : valid_order ord.
  Variable if_push : medge -> medge -> A -> bool.
  Variable source_pairs : option (list qpair).
  Let sources : list qpair := match source_pairs with None => [(A_initial g1, A_initial g2)] | Some l => l end.

  (** The search makes the calls [t] whatever the visitor, until the first one which raises, and ends with the colors [c]. *)
  Definition par_calls (t : list (pevent A)) (c : dict qpair color) : Prop :=
    forall St (vis : pevent A -> St -> res St) st fuel, length sources + (A_num_edges g1 + 1) * (A_num_edges g2 + 1) <= fuel ->
    parallel_breadth_first_search g1 g2 ord if_push vis fuel source_pairs [] st =
      Some (match pcalls vis t st with Ok st' => Ok (c, st') | Raise x => Raise x end).

  Lemma par_facts : exists t' c, par_calls (starts sources ++ t') c /\ on_pairs g1 g2 (examined t') t' /\
    (forall t1 x t2, starts sources ++ t' = t1 ++ x :: t2 -> legal if_push t1 x) /\ examined t' = sources ++ pushed if_push t' /\
    NoDup (discovered t') /\ (forall x, color_of c x = color_after (starts sources ++ t') x).
  Proof using VO.
    assert (HC : forall x, color_of [] x = color_after (starts (A:=A) sources) x).
    { intros x. unfold color_after. destruct (starts_other (A:=A) if_push sources) as (_ & -> & -> & _). reflexivity. }
    set (fuel := length sources + (A_num_edges g1 + 1) * (A_num_edges g2 + 1)).
    assert (LW : wh g1 g2 (starts (A:=A) sources) <= (A_num_edges g1 + 1) * (A_num_edges g2 + 1)).
    { unfold wh. transitivity (length (U g1 g2)); [apply NoDup_incl_length; [apply NoDup_filter, NoDup_U|intros x I; apply filter_In in I; apply I]|]. unfold U. rewrite prod_length. apply Nat.mul_le_mono; apply length_otargets. }
    destruct (tl_fuel g1 g2 ord if_push fuel 0 sources [] (starts sources) HC) as [[t' c] E]; [unfold fuel; lia|].
    assert (HQ : started (starts (A:=A) sources) ++ pushed if_push (starts sources) = examined (starts (A:=A) sources) ++ sources).
    { destruct (starts_other (A:=A) if_push sources) as (-> & _ & _ & ->). rewrite starts_started, app_nil_r. reflexivity. }
    destruct (tl_spec g1 g2 ord VO if_push _ _ _ _ _ _ _ HC HQ E) as (H1 & H2 & H3 & H4 & H5 & H6 & H7).
    exists t', c. split; [|split; [exact H1|]; split; [|split; [exact H5|]; split; [exact H6|exact H3]]].
    - intros St vis st fuel' L. unfold parallel_breadth_first_search. fold sources. rewrite sim_sources, pcalls_app. unfold starts. cbn [app].
      destruct (pcalls vis (map (ve HStart) sources) st) as [st1|x]; [cbn [rbind]|reflexivity].
      assert (E' : ParBfsProofs.tl g1 g2 ord if_push fuel' 0 sources [] = Some (t', c)) by (apply (tl_mono _ _ _ _ fuel); [exact L|exact E]).
      rewrite (ParBfsProofs.sim_loop g1 g2 ord if_push vis fuel' _ _ _ _ _ E'). unfold rbind. destruct (pcalls vis t' st1); reflexivity.
    - intros t1 x t2 Et. clear - Et H2. assert (LS : legals if_push [] (starts sources ++ t')).
      { apply legals_app; [|exact H2]. intros u y v Eu. assert (I : In y (starts (A:=A) sources)) by (rewrite Eu; apply in_app_iff; right; left; reflexivity).
        apply in_map_iff in I. destruct I as (s & <- & _). exact I. }
      apply (LS t1 x t2 Et).
  Qed.

  Lemma par_calls_fun t c t2 c2 : par_calls t c -> par_calls t2 c2 -> t = t2 /\ c = c2.
  Proof.
    intros H1 H2. assert (R : forall l (st : list (pevent A)), pcalls (fun x st => Ok (st ++ [x])) l st = Ok (st ++ l)).
    { induction l as [|x l IH]; intros st; cbn; [rewrite app_nil_r; reflexivity|]. rewrite IH, <- app_assoc. reflexivity. }
    specialize (H1 (list (pevent A)) (fun x st => Ok (st ++ [x])) [] _ (le_n _)). specialize (H2 (list (pevent A)) (fun x st => Ok (st ++ [x])) [] _ (le_n _)).
    rewrite H1, !R in H2. cbn [app] in H2. injection H2 as <- <-. auto.
  Qed.
  Lemma par_calls_facts t c : par_calls t c -> exists t', t = starts sources ++ t' /\ on_pairs g1 g2 (examined t') t' /\
    (forall t1 x t2, t = t1 ++ x :: t2 -> legal if_push t1 x) /\ examined t' = sources ++ pushed if_push t' /\
    NoDup (discovered t') /\ (forall x, color_of c x = color_after t x) /\
    examined t = examined t' /\ discovered t = discovered t' /\ pushed if_push t = pushed if_push t' /\ finished t = finished t'.
  Proof using VO.
    intros H. destruct par_facts as (t' & c' & H0 & H1 & H2 & H3 & H4 & H5). destruct (par_calls_fun _ _ _ _ H H0) as [-> ->]. exists t'.
    destruct (starts_other (A:=A) if_push sources) as (X1 & X2 & X3 & X4).
    repeat (split; [assumption || reflexivity|]). rewrite exam_app, disc_app, push_app, fin_app, X1, X2, X3, X4. auto.
  Qed.

  (** C91: the function terminates; it calls start_vertex on the sources, then it examines pairs, each one on all its
      symbols; each examined pair is the next one among the sources and the pushed pairs, and nothing else is examined. *)
  Theorem C91_calls : exists t c, par_calls t c /\
    (exists t', t = map (fun s => Vertex HStart (fst s) First (snd s) Second) sources ++ t' /\ on_pairs g1 g2 (examined t) t') /\
    (forall t1 x t2, t = t1 ++ x :: t2 -> legal if_push t1 x) /\
    examined t = sources ++ pushed if_push t /\ finished t = examined t /\ (forall x, color_of c x = color_after t x).
  Proof using VO.
    destruct par_facts as (t' & c & H0 & _). exists (starts sources ++ t'), c. split; [exact H0|].
    destruct (par_calls_facts _ _ H0) as (t2 & Et & H1 & H2 & H3 & H4 & H5 & H6 & H7 & H8 & H9). rewrite Et in *. rewrite H6, H8, H9.
    destruct (on_pairs_lists _ _ _ _ H1) as (_ & -> & _). split; [exists t2; split; [reflexivity|exact H1]|]. auto.
  Qed.

  (** C91: a pair which is not a source is discovered once if it is a successor of an examined pair, never otherwise. *)
  Theorem C91_discovered t c : par_calls t c -> NoDup (discovered t) /\
    forall x, ~ In x sources -> (In x (discovered t) <-> exists p a, In p (examined t) /\ enabled g1 g2 p a /\ x = step g1 g2 p a).
  Proof using VO.
    intros H. destruct (par_calls_facts _ _ H) as (t' & -> & H1 & H2 & H3 & H4 & H5 & -> & -> & H8 & H9). split; [exact H4|]. intros x NS.
    apply (discovered_other g1 g2 if_push sources t' H1 H2 H3 x NS).
  Qed.
  (** C91: a source is discovered, and then pushed again, if and only if it is a successor of itself or of a source before it. *)
  Theorem C91_discovered_source t c l1 s l2 : par_calls t c -> sources = l1 ++ s :: l2 -> ~ In s l1 ->
    (In s (discovered t) <-> exists p a, In p (l1 ++ [s]) /\ enabled g1 g2 p a /\ s = step g1 g2 p a).
  Proof using VO.
    intros H ES NI. destruct (par_calls_facts _ _ H) as (t' & -> & H1 & H2 & H3 & H4 & H5 & _ & -> & H8 & H9).
    apply (discovered_source g1 g2 if_push sources t' H1 H2 H3 l1 s l2 ES NI).
  Qed.

  (** When if_push only depends on the pair of the targets: *)
  Section Target.
    Variable pp : qpair -> bool.
    Hypothesis IP : forall p a, enabled g1 g2 p a -> if_push (edge_of g1 (fst p) a) (edge_of g2 (snd p) a) a = pp (step g1 g2 p a).

    (** C91: the examined pairs are those reached from the sources. *)
    Theorem C91_examined t c : par_calls t c -> forall p, In p (examined t) <-> reached g1 g2 pp sources p.
    Proof using VO IP.
      intros H. destruct (par_calls_facts _ _ H) as (t' & -> & H1 & H2 & H3 & H4 & H5 & -> & _ & H8 & H9). apply (examined_reached g1 g2 if_push sources t' H1 H2 H3 pp IP).
    Qed.
    (** C91: a pair which is not a source is examined once. *)
    Theorem C91_examined_once t c l1 x l2 : par_calls t c -> examined t = l1 ++ x :: l2 -> ~ In x sources -> ~ In x l1 /\ ~ In x l2.
    Proof using VO IP.
      intros H. destruct (par_calls_facts _ _ H) as (t' & -> & H1 & H2 & H3 & H4 & H5 & -> & _ & H8 & H9). rewrite H3. intros E NS.
      pose proof (NoDup_pushed g1 g2 if_push t' H1 pp IP H4) as NP. clear - E NS NP. revert l1 E. induction sources as [|s l IH]; intros l1 E.
      - cbn in E. rewrite E in NP. apply NoDup_remove_2 in NP. rewrite in_app_iff in NP. tauto.
      - destruct l1 as [|z l1]; cbn in E; injection E as -> E; [exfalso; apply NS; left; reflexivity|]. destruct (IH (fun I => NS (or_intror I)) l1 E) as [X1 X2]. split; [|exact X2].
        intros [->|I]; [apply NS; left; reflexivity|apply X1, I].
    Qed.
    (** C91: a pair which is not a source is examined after the pairs that are closer to the sources. *)
    Theorem C91_by_distance t c l1 x l2 y l3 m n : par_calls t c -> examined t = l1 ++ x :: l2 ++ y :: l3 -> ~ In y sources ->
      distance g1 g2 pp sources x m -> distance g1 g2 pp sources y n -> m <= n.
    Proof using VO IP.
      intros H. destruct (par_calls_facts _ _ H) as (t' & -> & H1 & H2 & H3 & H4 & H5 & -> & _ & H8 & H9).
      apply (examined_sorted g1 g2 if_push sources t' H1 H2 H3 pp IP H4).
    Qed.
  End Target.

  (** C91: with the default if_push, the pairs reached by a word from a source are examined. *)
  Theorem C91_words t c : (forall e1 e2 a, if_push e1 e2 a = true) -> par_calls t c ->
    forall p, In p (examined t) <-> In p sources \/ (p <> (None, None) /\ exists s w, In s sources /\ p = read g1 g2 s w).
  Proof using VO.
    intros IP H p. rewrite (C91_examined (fun _ => true) (fun p a _ => IP _ _ a) t c H).
    assert (RS : forall s w a, read g1 g2 s (w ++ [a]) = step g1 g2 (read g1 g2 s w) a) by (intros s w a; unfold read, step; cbn [fst snd]; rewrite !delta_word_app; reflexivity).
    split.
    - intros [n R]. destruct R as [s I|n q a R EN _]; [left; exact I|right]. split; [exact EN|]. clear EN.
      assert (X : exists s w, In s sources /\ q = read g1 g2 s w).
      { clear - R RS. induction R as [s I|n q b R (s & w & I & ->) EN _]; [exists s, []; split; [exact I|destruct s; reflexivity]|]. exists s, (w ++ [b]). rewrite RS. auto. }
      destruct X as (s & w & I & ->). exists s, (w ++ [a]). rewrite RS. auto.
    - intros [I|(N & s & w & I & ->)]; [exists 0; constructor; exact I|]. revert N. induction w as [|a w IH] using rev_ind; intros N.
      + exists 0. replace (read g1 g2 s []) with s by (destruct s; reflexivity). constructor. exact I.
      + rewrite RS in *. assert (N' : read g1 g2 s w <> (None, None)) by (intros E; rewrite E in N; apply N; reflexivity).
        destruct (IH N') as [n R]. exists (S n). apply reach_S; [exact R|exact N|reflexivity].
  Qed.
End T.

(** ** Examples and counterexamples *)
(** (a|b)* over two states with a final one, and a.b *)
Definition pb1 : aut nat := fst (runs A_call (A_init 2) [AAddEdge 0 1 1; AAddEdge 0 0 2; AAddEdge 1 0 2; ASetFinal 1 true]).
Definition pb2 : aut nat := fst (runs A_call (A_init 3) [AAddEdge 0 1 1; AAddEdge 1 2 2; ASetFinal 2 true]).
Definition id_order {X} : set_order X := fun _ l => l.
Definition record_calls (x : pevent nat) (st : list (pevent nat)) : res (list (pevent nat)) := Ok (st ++ [x]).
Definition pb_run (g1 g2 : aut nat) ip sp : list (pevent nat) :=
  match parallel_breadth_first_search g1 g2 id_order ip record_calls 100 sp [] [] with Some (Ok (_, t)) => t | _ => [] end.

Example ex_C91 : (* five pairs, by distance; the last ones have no second state any more *)
  examined (pb_run pb1 pb2 (fun _ _ _ => true) None) = [(Some 0, Some 0); (Some 1, Some 1); (Some 0, None); (Some 0, Some 2); (Some 1, None)] /\
  discovered (pb_run pb1 pb2 (fun _ _ _ => true) None) = [(Some 1, Some 1); (Some 0, None); (Some 0, Some 2); (Some 1, None)].
Proof. vm_compute. auto. Qed.
Example ex_C91_target : (* an if_push that satisfies the hypothesis of C91_examined: both targets exist *)
  let ip (e1 e2 : medge) (_ : nat) := match medge_target e1, medge_target e2 with Some _, Some _ => true | _, _ => false end in
  let pp (p : qpair) := match p with (Some _, Some _) => true | _ => false end in
  (forall p a, enabled pb1 pb2 p a -> ip (edge_of pb1 (fst p) a) (edge_of pb2 (snd p) a) a = pp (step pb1 pb2 p a)) /\
  examined (pb_run pb1 pb2 ip None) = [(Some 0, Some 0); (Some 1, Some 1); (Some 0, Some 2)].
Proof.
  split; [|vm_compute; reflexivity]. intros [[q1|] [q2|]] a _; reflexivity.
Qed.
Example ex_C91_source : (* the second source is a successor of the first one *)
  examined (pb_run pb1 pb2 (fun _ _ _ => true) (Some [(Some 1, Some 1); (Some 0, Some 2)])) =
  [(Some 1, Some 1); (Some 0, Some 2); (Some 0, Some 2); (Some 1, None); (Some 0, None)].
Proof. vm_compute. reflexivity. Qed.

Lemma pb_run_calls g1 g2 ip sp t c : par_calls g1 g2 id_order ip sp t c ->
  length (match sp with None => [(A_initial g1, A_initial g2)] | Some l => l end) + (A_num_edges g1 + 1) * (A_num_edges g2 + 1) <= 100 -> t = pb_run g1 g2 ip sp.
Proof.
  intros H L. assert (R : forall l st, pcalls record_calls l st = Ok (st ++ l)).
  { induction l as [|x l IH]; intros st; cbn; [rewrite app_nil_r; reflexivity|]. rewrite IH, <- app_assoc. reflexivity. }
  unfold pb_run. rewrite (H _ record_calls [] 100 L), R. reflexivity.
Qed.
Lemma id_order_valid : valid_order (A:=nat) id_order.
Proof. intros n l. apply Permutation_refl. Qed.

(** C91 fails for the sources: color map is not set for them, so a source with a loop is discovered and examined twice. *)
Theorem C91_source_once_refuted : exists (g1 g2 : aut nat) t c, par_calls g1 g2 id_order (fun _ _ _ => true) None t c /\ ~ NoDup (examined t).
Proof.
  set (g := fst (runs A_call (A_init (A:=nat) 1) [AAddEdge 0 0 1])).
  destruct (C91_calls g g id_order id_order_valid (fun _ _ _ => true) None) as (t & c & H & _). exists g, g, t, c. split; [exact H|].
  rewrite (pb_run_calls _ _ _ _ _ _ H) by (vm_compute; repeat constructor). vm_compute. intros N. inversion N as [|x l NI _]. apply NI. left. reflexivity.
Qed.
(** C91 fails if if_push depends on the edges: a pair discovered through a rejected pair of edges is not examined when
    an accepted pair of edges leads to it. *)
Theorem C91_if_push_refuted : exists (g1 g2 : aut nat) ip t c, par_calls g1 g2 id_order ip None t c /\
  exists p a, In p (examined t) /\ enabled g1 g2 p a /\ ip (edge_of g1 (fst p) a) (edge_of g2 (snd p) a) a = true /\ ~ In (step g1 g2 p a) (examined t).
Proof.
  set (g := fst (runs A_call (A_init (A:=nat) 2) [AAddEdge 0 1 1; AAddEdge 0 1 2])). set (ip := fun (e1 e2 : medge) (a : nat) => a =? 2).
  destruct (C91_calls g g id_order id_order_valid ip None) as (t & c & H & _). exists g, g, ip, t, c. split; [exact H|].
  rewrite (pb_run_calls _ _ _ _ _ _ H) by (vm_compute; repeat constructor). exists (Some 0, Some 0), 2. vm_compute.
  split; [auto|]. split; [discriminate|]. split; [reflexivity|]. intros [E|[]]. discriminate.
Qed.
(** C91 fails for the arguments of finish_vertex: the visitor receives g2 twice. *)
Theorem C91_finish_refuted : exists (g1 g2 : aut nat) t c, par_calls g1 g2 id_order (fun _ _ _ => true) None t c /\
  exists q1 q2, In (Vertex HFinish q1 Second q2 Second) t.
Proof.
  destruct (C91_calls pb1 pb2 id_order id_order_valid (fun _ _ _ => true) None) as (t & c & H & _). exists pb1, pb2, t, c. split; [exact H|].
  rewrite (pb_run_calls _ _ _ _ _ _ H) by (vm_compute; repeat constructor). exists (Some 0), (Some 0). vm_compute. tauto.
Qed.

Print Assumptions C91_calls.
Print Assumptions C91_discovered.
Print Assumptions C91_discovered_source.
Print Assumptions C91_examined.
Print Assumptions C91_examined_once.
Print Assumptions C91_by_distance.
Print Assumptions C91_words.
Print Assumptions C91_source_once_refuted.
Print Assumptions C91_if_push_refuted.
Print Assumptions C91_finish_refuted.
