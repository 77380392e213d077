(** Proofs about the graph models: adjacency dictionaries refine edge sets. *)
From Verif Require Import Base BaseProofs Graph GraphSpec.

Lemma foreach_inv {S A} (f : S -> A -> S * res unit) (P : S -> list A -> Prop) :
  (forall s x l, P s (x :: l) -> exists s', f s x = (s', Ok tt) /\ P s' l) ->
  forall l s, P s l -> exists s', foreach f s l = (s', Ok tt) /\ P s' [].
Proof.
  intros Hf. induction l as [|x l IH]; intros s Hs; cbn; [eauto|].
  destruct (Hf _ _ _ Hs) as (s' & -> & Hs'). apply IH. exact Hs'.
Qed.

Lemma edge_eta {D} (e : edge D) : e = Edge (source e) (target e) (distinguisher e).
Proof. destruct e; reflexivity. Qed.

Lemma list_max_ext l l' : (forall x, In x l <-> In x l') -> list_max l = list_max l'.
Proof.
  intros E. apply Nat.le_antisymm; apply list_max_le; apply Forall_forall; intros x I;
    apply E in I; [assert (F := proj1 (list_max_le l' (list_max l')) (le_n _))
                  |assert (F := proj1 (list_max_le l (list_max l)) (le_n _))];
    rewrite Forall_forall in F; auto.
Qed.

(** ** Adjacency dictionaries *)

Definition asets (m : adj) (u v : nat) : list nat :=
  match dget m u with
  | None => []
  | Some d => match dget d v with None => [] | Some s => s end
  end.

Record wf_adj (m : adj) : Prop := {
  wf_keys : NoDup (dkeys m);
  wf_inner : forall u d, dget m u = Some d -> NoDup (dkeys d);
  wf_sets : forall u v, NoDup (asets m u v) }.

(** No empty set is stored at the positions selected by [P]. *)
Definition tightP (P : nat -> nat -> Prop) (m : adj) : Prop :=
  forall u d v s, P u v -> dget m u = Some d -> dget d v = Some s -> s <> [].
Notation tight := (tightP (fun _ _ => True)).

Lemma wf_adj_nil : wf_adj [].
Proof. split; cbn; try constructor; discriminate. Qed.

Lemma In_star u d e : NoDup (dkeys d) ->
  (In e (star u d) <-> source e = u /\ exists s, dget d (target e) = Some s /\ In (distinguisher e) s).
Proof.
  intros ND. unfold star. rewrite in_flat_map. split.
  - intros ([v s] & I & J). apply in_map_iff in J. destruct J as (n & <- & In_n). cbn.
    split; [reflexivity|]. exists s. split; [apply In_dget; assumption | assumption].
  - intros (<- & s & G & In_n). exists (target e, s). split; [apply dget_In; exact G|].
    apply in_map_iff. exists (distinguisher e). split; [symmetry; apply edge_eta | exact In_n].
Qed.

Lemma NoDup_star u d :
  NoDup (dkeys d) -> (forall v s, dget d v = Some s -> NoDup s) -> NoDup (star u d).
Proof.
  intros ND NS. unfold star. apply NoDup_flat_map.
  - apply NoDup_map_inv with (f := fst). exact ND.
  - intros [v s] I. apply NoDup_map_inj_in.
    + apply (NS v). apply In_dget; assumption.
    + intros x y _ _ E. injection E. auto.
  - intros [v s] [v' s'] z I I' J J'. apply in_map_iff in J, J'.
    destruct J as (n & <- & _), J' as (n' & E & _). injection E as -> _.
    apply In_dget in I, I'; [|assumption..]. congruence.
Qed.

Lemma In_out_edges g u e : wf_adj (adjacencies g) ->
  (In e (G_out_edges g u) <->
   source e = u /\ In (distinguisher e) (asets (adjacencies g) u (target e))).
Proof.
  intros W. unfold G_out_edges, asets. destruct (dget (adjacencies g) u) as [d|] eqn:E.
  - rewrite In_star by (apply (wf_inner _ W _ _ E)). split.
    + intros (-> & s & -> & I). tauto.
    + intros (-> & I). split; [reflexivity|].
      destruct (dget d (target e)) as [s|]; [eauto | destruct I].
  - cbn. tauto.
Qed.

Lemma wf_inner_sets m : wf_adj m -> forall u d v s,
  dget m u = Some d -> dget d v = Some s -> NoDup s.
Proof.
  intros W u d v s E E'. generalize (wf_sets _ W u v). unfold asets. rewrite E, E'. tauto.
Qed.

Lemma NoDup_out_edges g u : wf_adj (adjacencies g) -> NoDup (G_out_edges g u).
Proof.
  intros W. unfold G_out_edges. destruct (dget (adjacencies g) u) as [d|] eqn:E; [|constructor].
  apply NoDup_star; [apply (wf_inner _ W _ _ E)|].
  intros v s E'. eapply wf_inner_sets; eassumption.
Qed.

Lemma In_edges g e : wf_adj (adjacencies g) ->
  (In e (G_edges g) <-> In (distinguisher e) (asets (adjacencies g) (source e) (target e))).
Proof.
  intros W. unfold G_edges. rewrite in_flat_map. split.
  - intros ([u d] & I & J). apply In_dget in I; [|apply (wf_keys _ W)].
    apply In_star in J; [|apply (wf_inner _ W _ _ I)].
    destruct J as (-> & s & E & In_n). unfold asets. rewrite I, E. exact In_n.
  - unfold asets. destruct (dget (adjacencies g) (source e)) as [d|] eqn:E; [|intros []].
    destruct (dget d (target e)) as [s|] eqn:E'; [|intros []]. intros I.
    exists (source e, d). split; [apply dget_In; exact E|].
    apply In_star; [apply (wf_inner _ W _ _ E)|]. eauto.
Qed.

Lemma NoDup_edges g : wf_adj (adjacencies g) -> NoDup (G_edges g).
Proof.
  intros W. unfold G_edges. apply NoDup_flat_map.
  - apply NoDup_map_inv with (f := fst). apply (wf_keys _ W).
  - intros [u d] I. apply In_dget in I; [|apply (wf_keys _ W)].
    apply NoDup_star; [apply (wf_inner _ W _ _ I)|].
    intros v s E'. eapply wf_inner_sets; eassumption.
  - intros [u d] [u' d'] z I I' J J'. apply In_dget in I, I'; [|apply (wf_keys _ W)..].
    apply In_star in J; [|apply (wf_inner _ W _ _ I)].
    apply In_star in J'; [|apply (wf_inner _ W _ _ I')].
    destruct J as [J _], J' as [J' _]. congruence.
Qed.

Lemma asets_key m u v n : In n (asets m u v) -> In u (dkeys m).
Proof.
  unfold asets. destruct (dget m u) eqn:E; [|intros []]. intros _. eapply dget_Some_key; exact E.
Qed.

(** Effect of storing a new inner set. *)
Lemma asets_dset m u d v s u' v' : dget m u = Some d ->
  asets (dset m u (dset d v s)) u' v' = if eqb (u', v') (u, v) then s else asets m u' v'.
Proof.
  intros E. unfold asets. rewrite dget_dset.
  destruct (eqb_spec u' u) as [->|N].
  - rewrite dget_dset, E. destruct (eqb_spec v' v) as [->|N'].
    + rewrite eqb_refl. reflexivity.
    + destruct (eqb_spec (u, v') (u, v)); [congruence|reflexivity].
  - destruct (eqb_spec (u', v') (u, v)); [congruence|reflexivity].
Qed.

Lemma asets_ddel m u d v u' v' : wf_adj m -> dget m u = Some d ->
  asets (dset m u (ddel d v)) u' v' = if eqb (u', v') (u, v) then [] else asets m u' v'.
Proof.
  intros W E. unfold asets. rewrite dget_dset.
  destruct (eqb_spec u' u) as [->|N].
  - rewrite dget_ddel, E by (apply (wf_inner _ W _ _ E)).
    destruct (eqb_spec v' v) as [->|N'].
    + rewrite eqb_refl. reflexivity.
    + destruct (eqb_spec (u, v') (u, v)); [congruence|reflexivity].
  - destruct (eqb_spec (u', v') (u, v)); [congruence|reflexivity].
Qed.

Lemma wf_dset m u d v s : wf_adj m -> dget m u = Some d -> NoDup s ->
  wf_adj (dset m u (dset d v s)).
Proof.
  intros W E NS. split.
  - apply NoDup_dset, (wf_keys _ W).
  - intros u' d' E'. rewrite dget_dset in E'. destruct (eqb_spec u' u) as [->|N].
    + injection E' as <-. apply NoDup_dset, (wf_inner _ W _ _ E).
    + apply (wf_inner _ W _ _ E').
  - intros u' v'. rewrite asets_dset by exact E.
    destruct (eqb (u', v') (u, v)); [exact NS | apply (wf_sets _ W)].
Qed.

Lemma wf_dset_ddel m u d v : wf_adj m -> dget m u = Some d -> wf_adj (dset m u (ddel d v)).
Proof.
  intros W E. split.
  - apply NoDup_dset, (wf_keys _ W).
  - intros u' d' E'. rewrite dget_dset in E'. destruct (eqb_spec u' u) as [->|N].
    + injection E' as <-. apply NoDup_ddel, (wf_inner _ W _ _ E).
    + apply (wf_inner _ W _ _ E').
  - intros u' v'. rewrite asets_ddel by assumption.
    destruct (eqb (u', v') (u, v)); [constructor | apply (wf_sets _ W)].
Qed.

Lemma dkeys_dset_stored {V} (m : dict nat V) u d v : dget m u = Some d -> dkeys (dset m u v) = dkeys m.
Proof. intros E. apply dkeys_dset_old. eapply dget_Some_key; exact E. Qed.

Lemma tight_dset P m u d v s : tightP P m -> dget m u = Some d -> (P u v -> s <> []) ->
  tightP P (dset m u (dset d v s)).
Proof.
  intros T E NS u' d' v' s' HP E1 E2. rewrite dget_dset in E1. destruct (eqb_spec u' u) as [->|N].
  - injection E1 as <-. rewrite dget_dset in E2. destruct (eqb_spec v' v) as [->|N'].
    + injection E2 as <-. auto.
    + eapply T; eassumption.
  - eapply T; eassumption.
Qed.

Lemma tight_ddel P m u d v : wf_adj m -> tightP P m -> dget m u = Some d ->
  tightP P (dset m u (ddel d v)).
Proof.
  intros W T E u' d' v' s' HP E1 E2. rewrite dget_dset in E1. destruct (eqb_spec u' u) as [->|N].
  - injection E1 as <-. rewrite dget_ddel in E2 by (apply (wf_inner _ W _ _ E)).
    destruct (eqb_spec v' v) as [->|N']; [discriminate|]. eapply T; eassumption.
  - eapply T; eassumption.
Qed.

(** New vertex. *)
Lemma asets_new m u u' v' : ~ In u (dkeys m) -> asets (dset m u []) u' v' = asets m u' v'.
Proof.
  intros NI. unfold asets. rewrite dget_dset. destruct (eqb_spec u' u) as [->|N]; [|reflexivity].
  rewrite (proj2 (dget_None m u) NI). reflexivity.
Qed.
Lemma wf_new m u : wf_adj m -> ~ In u (dkeys m) -> wf_adj (dset m u []).
Proof.
  intros W NI. split.
  - apply NoDup_dset, (wf_keys _ W).
  - intros u' d' E'. rewrite dget_dset in E'. destruct (eqb_spec u' u) as [->|N].
    + injection E' as <-. constructor.
    + apply (wf_inner _ W _ _ E').
  - intros u' v'. rewrite asets_new by exact NI. apply (wf_sets _ W).
Qed.
Lemma tight_new P m u : tightP P m -> tightP P (dset m u []).
Proof.
  intros T u' d' v' s' HP E1 E2. rewrite dget_dset in E1. destruct (eqb_spec u' u) as [->|N].
  - injection E1 as <-. discriminate.
  - eapply T; eassumption.
Qed.

(** Removal of a vertex. *)
Lemma asets_del m u u' v' : wf_adj m ->
  asets (ddel m u) u' v' = if eqb u' u then [] else asets m u' v'.
Proof.
  intros W. unfold asets. rewrite dget_ddel by (apply (wf_keys _ W)).
  destruct (eqb u' u); reflexivity.
Qed.
Lemma wf_del m u : wf_adj m -> wf_adj (ddel m u).
Proof.
  intros W. split.
  - apply NoDup_ddel, (wf_keys _ W).
  - intros u' d' E'. rewrite dget_ddel in E' by (apply (wf_keys _ W)).
    destruct (eqb u' u); [discriminate|]. apply (wf_inner _ W _ _ E').
  - intros u' v'. rewrite asets_del by exact W.
    destruct (eqb u' u); [constructor | apply (wf_sets _ W)].
Qed.
Lemma tight_del P m u : wf_adj m -> tightP P m -> tightP P (ddel m u).
Proof.
  intros W T u' d' v' s' HP E1 E2. rewrite dget_ddel in E1 by (apply (wf_keys _ W)).
  destruct (eqb u' u); [discriminate|]. eapply T; eassumption.
Qed.

(** [adj_remove]. *)
Lemma adj_remove_in m u v n : wf_adj m -> In n (asets m u v) ->
  exists m', adj_remove m u v n = (m', Ok tt) /\ wf_adj m' /\ dkeys m' = dkeys m /\
    (forall P, tightP P m -> tightP P m') /\
    (forall u' v' n', In n' (asets m' u' v') <-> In n' (asets m u' v') /\ (u', v', n') <> (u, v, n)).
Proof.
  intros W I. unfold adj_remove. assert (I0 := I). unfold asets in I.
  destruct (dget m u) as [d|] eqn:E; [|destruct I].
  destruct (dget d v) as [s|] eqn:E'; [|destruct I].
  apply mem_spec in I. rewrite I. apply mem_spec in I.
  assert (NS : NoDup s) by (eapply wf_inner_sets; eassumption).
  assert (S : asets m u v = s) by (unfold asets; rewrite E, E'; reflexivity).
  destruct (srem n s) as [|x s0] eqn:ES.
  - eexists. split; [reflexivity|]. split; [apply wf_dset_ddel; assumption|].
    split; [eapply dkeys_dset_stored; exact E|]. split; [intros P T; apply tight_ddel; assumption|].
    intros u' v' n'. rewrite asets_ddel by assumption.
    destruct (eqb_spec (u', v') (u, v)) as [P|P].
    + injection P as -> ->. rewrite S. split; [intros []|]. intros (J & N).
      assert (J' : In n' (srem n s)) by (apply In_srem; split; [congruence|exact J]).
      rewrite ES in J'. exact J'.
    + split; [intros J; split; [exact J|congruence] | tauto].
  - rewrite <- ES. eexists. split; [reflexivity|].
    split; [apply wf_dset; [assumption..|apply NoDup_srem, NS]|].
    split; [eapply dkeys_dset_stored; exact E|].
    split; [intros P T; apply tight_dset; [assumption..|congruence]|].
    intros u' v' n'. rewrite asets_dset by assumption.
    destruct (eqb_spec (u', v') (u, v)) as [P|P].
    + injection P as -> ->. rewrite S, In_srem. split.
      * intros (N & J). split; [exact J|congruence].
      * intros (J & N). split; [congruence|exact J].
    + split; [intros J; split; [exact J|congruence] | tauto].
Qed.

Lemma adj_remove_out m u v n : ~ In n (asets m u v) ->
  adj_remove m u v n =
  (m, match dget m u with
      | None => Raise KeyError
      | Some d => match dget d v with None => Raise KeyError | Some _ => Ok tt end
      end).
Proof.
  unfold adj_remove, asets. destruct (dget m u) as [d|]; [|reflexivity].
  destruct (dget d v) as [s|]; [|reflexivity].
  intros NI. apply mem_false in NI. rewrite NI. reflexivity.
Qed.

Lemma tight_present P m u v : tightP P m -> P u v ->
  (match dget m u with
   | None => Raise KeyError
   | Some d => match dget d v with None => Raise KeyError | Some _ => Ok tt end
   end) = (match asets m u v with [] => Raise KeyError | _ => Ok tt end).
Proof.
  intros T HP. unfold asets. destruct (dget m u) as [d|] eqn:E; [|reflexivity].
  destruct (dget d v) as [s|] eqn:E'; [|reflexivity].
  destruct s; [|reflexivity]. exfalso. eapply T; try eassumption. reflexivity.
Qed.

(** ** Directed graphs *)

(** Directed representation relation (without the counter). *)
Record drep (g : graph) (V : list nat) (E : list gedge) : Prop := {
  dr_wf : wf_adj (adjacencies g);
  dr_tight : tight (adjacencies g);
  dr_keys : dkeys (adjacencies g) = V;
  dr_nd : NoDup E;
  dr_in : forall e, In e E <-> In (distinguisher e) (asets (adjacencies g) (source e) (target e)) }.

Definition counter_ok (k : nat) (V : list nat) : Prop := forall v, In v V -> v < k.

Definition drep_full (g : graph) (a : agraph) : Prop :=
  drep g (verts a) (es a) /\ last_vertex_id g = next_id a /\ counter_ok (next_id a) (verts a).

Lemma drep_edges g V E : drep g V E -> Permutation (G_edges g) E.
Proof.
  intros R. apply NoDup_Permutation; [apply NoDup_edges, (dr_wf _ _ _ R) | apply (dr_nd _ _ _ R)|].
  intros e. rewrite In_edges by (apply (dr_wf _ _ _ R)). symmetry. apply (dr_in _ _ _ R).
Qed.

Lemma drep_out g V E u : drep g V E -> Permutation (G_out_edges g u) (filter (fun e => source e =? u) E).
Proof.
  intros R. apply NoDup_Permutation.
  - apply NoDup_out_edges, (dr_wf _ _ _ R).
  - apply NoDup_filter, (dr_nd _ _ _ R).
  - intros e. rewrite In_out_edges by (apply (dr_wf _ _ _ R)).
    rewrite filter_In, Nat.eqb_eq, (dr_in _ _ _ R). split; intros []; subst; tauto.
Qed.

Lemma In_between u v E e : In e (between u v E) <-> In e E /\ source e = u /\ target e = v.
Proof. unfold between. rewrite filter_In, andb_true_iff, !Nat.eqb_eq. tauto. Qed.

Lemma drep_between g V E u v : drep g V E ->
  Permutation (map distinguisher (between u v E)) (asets (adjacencies g) u v).
Proof.
  intros R. apply NoDup_Permutation.
  - apply NoDup_map_inj_in; [apply NoDup_filter, (dr_nd _ _ _ R)|].
    intros x y Ix Iy Eq. apply In_between in Ix, Iy. destruct Ix as (_ & <- & <-), Iy as (_ & E1 & E2).
    rewrite (edge_eta x), (edge_eta y). congruence.
  - apply (wf_sets _ (dr_wf _ _ _ R)).
  - intros n. rewrite in_map_iff. split.
    + intros (e & <- & I). apply In_between in I. destruct I as (I & <- & <-).
      apply (dr_in _ _ _ R). exact I.
    + intros I. exists (Edge u v n). split; [reflexivity|]. apply In_between.
      split; [apply (dr_in _ _ _ R); exact I | split; reflexivity].
Qed.

Lemma max_set_list_max l : max_set l = list_max l.
Proof. reflexivity. Qed.

(** The distinguisher computed by [G_add_edge]. *)
Definition next_n (s : list nat) : nat := match s with [] => 0 | _ => S (list_max s) end.

Lemma next_n_fresh s : ~ In (next_n s) s.
Proof.
  destruct s as [|x s]; [tauto|]. unfold next_n. intros I.
  assert (F := proj1 (list_max_le (x :: s) _) (le_n _)). rewrite Forall_forall in F.
  apply F in I. lia.
Qed.

Lemma fresh_next_n E s : Permutation (map distinguisher E) s -> fresh E = next_n s.
Proof.
  intros P. unfold fresh, next_n. destruct E as [|e E].
  - apply Permutation_nil in P. subst. reflexivity.
  - destruct s as [|x s]; [apply Permutation_sym, Permutation_nil in P; discriminate|].
    f_equal. apply list_max_ext. intros y. split; apply Permutation_in; [exact P | symmetry; exact P].
Qed.

Lemma G_add_edge_ok g u v d : dget (adjacencies g) u = Some d ->
  let n := next_n (asets (adjacencies g) u v) in
  exists s, G_add_edge g u v =
    (mkGraph (last_vertex_id g) (dset (adjacencies g) u (dset d v s)), Ok (Edge u v n, true)) /\
    (forall x, In x s <-> x = n \/ In x (asets (adjacencies g) u v)) /\
    (NoDup (asets (adjacencies g) u v) -> NoDup s).
Proof.
  intros E. cbn zeta. unfold G_add_edge, asets. rewrite E.
  destruct (dget d v) as [s|] eqn:E'.
  - destruct s as [|x s].
    + exists [0]. cbn. split; [reflexivity|]. split; [intros y; intuition congruence|].
      intros _. repeat constructor. intros [].
    + cbn [length Nat.eqb]. replace (max_set (x :: s) + 1) with (next_n (x :: s)).
      2:{ rewrite max_set_list_max. unfold next_n. lia. }
      eexists. split; [reflexivity|]. split; [intros y; apply In_sadd | apply NoDup_sadd].
  - exists [0]. cbn. split; [reflexivity|]. split; [intros y; intuition congruence|].
    intros _. repeat constructor. intros [].
Qed.

Lemma drep_add_edge g V E u v : drep g V E -> In u V ->
  exists g', G_add_edge g u v = (g', Ok (Edge u v (fresh (between u v E)), true)) /\
    last_vertex_id g' = last_vertex_id g /\ drep g' V (E ++ [Edge u v (fresh (between u v E))]).
Proof.
  intros R Iu. assert (W := dr_wf _ _ _ R). assert (K := dr_keys _ _ _ R).
  rewrite <- K in Iu. apply key_dget in Iu. destruct Iu as (d & Ed).
  destruct (G_add_edge_ok g u v d Ed) as (s & EQ & Is & Ns).
  assert (F : fresh (between u v E) = next_n (asets (adjacencies g) u v)).
  { apply fresh_next_n. eapply drep_between; exact R. }
  rewrite <- F in *. set (n := fresh (between u v E)) in *.
  assert (Fr : ~ In n (asets (adjacencies g) u v)) by (rewrite F; apply next_n_fresh).
  eexists. split; [exact EQ|]. split; [reflexivity|].
  assert (NS : NoDup s) by (apply Ns, (wf_sets _ W)).
  split; cbn [adjacencies].
  - apply wf_dset; assumption.
  - apply tight_dset; [apply (dr_tight _ _ _ R) | exact Ed|]. intros _ ->.
    apply (proj2 (Is n)). left. reflexivity.
  - erewrite dkeys_dset_stored by exact Ed. exact K.
  - apply NoDup_snoc; [apply (dr_nd _ _ _ R)|]. rewrite (dr_in _ _ _ R). exact Fr.
  - intros e. rewrite in_app_iff, (dr_in _ _ _ R), asets_dset by exact Ed. cbn [In].
    destruct (eqb_spec (source e, target e) (u, v)) as [P|P].
    + injection P as P1 P2. rewrite P1, P2. rewrite Is.
      split; intros [J|J]; try tauto.
      * destruct J as [J|[]]. left. rewrite <- J. reflexivity.
      * right. left. rewrite (edge_eta e). congruence.
    + split; [intros [J|[J|[]]]; [exact J|] | tauto]. subst e. cbn in P. congruence.
Qed.

Lemma drep_remove_in g V E e : drep g V E -> In e E ->
  exists g', G_remove_edge g e = (g', Ok tt) /\ last_vertex_id g' = last_vertex_id g /\
    drep g' V (without e E).
Proof.
  intros R I. assert (W := dr_wf _ _ _ R). assert (I' := I). apply (dr_in _ _ _ R) in I'.
  destruct (adj_remove_in _ _ _ _ W I') as (m' & EQ & W' & K & T & S).
  unfold G_remove_edge. rewrite EQ. eexists. split; [reflexivity|]. split; [reflexivity|].
  split; cbn [adjacencies].
  - exact W'.
  - apply T, (dr_tight _ _ _ R).
  - rewrite K. apply (dr_keys _ _ _ R).
  - apply NoDup_filter, (dr_nd _ _ _ R).
  - intros x. unfold without. rewrite filter_In, negb_true_iff, eqb_neq, S, (dr_in _ _ _ R).
    split; intros (A & B); (split; [exact A|]); intros C; apply B;
      [|rewrite C; reflexivity].
    rewrite (edge_eta x), (edge_eta e). congruence.
Qed.

Lemma In_without e E x : In x (without e E) <-> In x E /\ x <> e.
Proof. unfold without. rewrite filter_In, negb_true_iff, eqb_neq. tauto. Qed.

Lemma filter_id {A} (f : A -> bool) l : (forall x, In x l -> f x = true) -> filter f l = l.
Proof.
  induction l as [|x l IH]; cbn; intros F; [reflexivity|].
  rewrite F by (left; reflexivity). f_equal. apply IH. intros y I. apply F. right. exact I.
Qed.

Lemma without_notin e E : ~ In e E -> without e E = E.
Proof.
  intros NI. apply filter_id. intros x I. apply negb_true_iff, eqb_neq. intros ->. contradiction.
Qed.

Lemma drep_remove_edge g V E e : drep g V E ->
  match between (source e) (target e) E with
  | [] => G_remove_edge g e = (g, Raise KeyError)
  | _ => exists g', G_remove_edge g e = (g', Ok tt) /\ last_vertex_id g' = last_vertex_id g /\
           drep g' V (without e E)
  end.
Proof.
  intros R. assert (B := drep_between _ _ _ (source e) (target e) R).
  destruct (in_dec' e E) as [I|NI].
  - destruct (between (source e) (target e) E) as [|x l] eqn:EB.
    + exfalso. assert (J : In e (between (source e) (target e) E)) by (apply In_between; auto).
      rewrite EB in J. destruct J.
    + apply drep_remove_in; assumption.
  - assert (NI' := NI). rewrite (dr_in _ _ _ R) in NI'.
    assert (EQ : G_remove_edge g e =
      (g, match asets (adjacencies g) (source e) (target e) with [] => Raise KeyError | _ => Ok tt end)).
    { unfold G_remove_edge. rewrite adj_remove_out by exact NI'.
      rewrite (tight_present _ _ _ _ (dr_tight _ _ _ R) I). destruct g; reflexivity. }
    destruct (between (source e) (target e) E) as [|x l].
    + apply Permutation_nil in B. rewrite B in EQ. exact EQ.
    + destruct (asets (adjacencies g) (source e) (target e)).
      { apply Permutation_sym, Permutation_nil in B. discriminate. }
      exists g. rewrite without_notin by exact NI. auto.
Qed.

(** Removing a list of stored edges, one by one. *)
Lemma drep_remove_list g V E (c : gedge -> bool) l :
  drep g V E -> NoDup l -> (forall e, In e l -> In e E) ->
  exists g', foreach (fun g e => if c e then G_remove_edge g e else (g, Ok tt)) g l = (g', Ok tt) /\
    last_vertex_id g' = last_vertex_id g /\
    exists E', drep g' V E' /\ (forall e, In e E' <-> In e E /\ (In e l -> c e = false)).
Proof.
  intros R ND Sub.
  pose (P := fun g' (rest : list gedge) => last_vertex_id g' = last_vertex_id g /\ NoDup rest /\
     (forall e, In e rest -> In e l) /\
     exists E', drep g' V E' /\ (forall e, In e rest -> In e E') /\
       (forall e, In e E' <-> In e E /\ (In e l -> In e rest \/ c e = false))).
  destruct (foreach_inv (fun g e => if c e then G_remove_edge g e else (g, Ok tt)) P) with (l := l) (s := g)
    as (g' & EQ & H1 & _ & _ & E' & H2 & _ & H3).
  - intros g1 x rest (H1 & ND1 & Sl & E1 & R1 & S1 & M1). inversion ND1 as [|? ? NI ND2]; subst.
    destruct (c x) eqn:C.
    + destruct (drep_remove_in g1 V E1 x R1) as (g2 & EQ & L & R2); [apply S1; left; reflexivity|].
      exists g2. split; [exact EQ|]. split; [congruence|]. split; [exact ND2|].
      split; [intros e I; apply Sl; right; exact I|].
      exists (without x E1). split; [exact R2|]. split.
      * intros e I. apply In_without. split; [apply S1; right; exact I|]. congruence.
      * intros e. rewrite In_without, M1. cbn. split.
        -- intros ((A & B) & N). split; [exact A|]. intros J.
           destruct (B J) as [[K|K]|K]; [congruence|tauto|tauto].
        -- intros (A & B). split; [split; [exact A|]|]; [intros J; destruct (B J); tauto|].
           intros ->. destruct B as [Y|Y]; [apply Sl; left; reflexivity|contradiction|congruence].
    + exists g1. split; [reflexivity|]. split; [exact H1|]. split; [exact ND2|].
      split; [intros e I; apply Sl; right; exact I|].
      exists E1. split; [exact R1|]. split; [intros e I; apply S1; right; exact I|].
      intros e. rewrite M1. cbn. split; intros (A & B); (split; [exact A|]); intros J;
        destruct (B J) as [K|K]; try tauto.
      destruct K as [<-|K]; tauto.
  - split; [reflexivity|]. split; [exact ND|]. split; [auto|]. exists E. split; [exact R|]. split; [exact Sub|].
    tauto.
  - exists g'. split; [exact EQ|]. split; [exact H1|]. exists E'. split; [exact H2|].
    intros e. rewrite H3. cbn. split; intros (A & B); (split; [exact A|]); intros J; specialize (B J); tauto.
Qed.

Lemma drep_ext g V E E' : drep g V E -> NoDup E' -> (forall e, In e E' <-> In e E) -> drep g V E'.
Proof.
  intros [W T K N I] N' H. split; try assumption. intros e. rewrite H. apply I.
Qed.

Lemma drep_remove_vertex g V E u : drep g V E ->
  exists g', last_vertex_id g' = last_vertex_id g /\
    if mem u V
    then DG_remove_vertex g u = (g', Ok tt) /\
         drep g' (filter (fun v => negb (v =? u)) V) (not_incident u E)
    else DG_remove_vertex g u = (g', Raise KeyError) /\ drep g' V (not_into u E).
Proof.
  intros R.
  destruct (drep_remove_list g V E (fun e => u =? target e) (G_edges g) R) as (g1 & EQ1 & L1 & E1 & R1 & M1).
  { apply NoDup_edges, (dr_wf _ _ _ R). }
  { intros e. apply Permutation_in. eapply drep_edges; exact R. }
  destruct (drep_remove_list g1 V E1 (fun _ => true) (G_out_edges g1 u) R1) as (g2 & EQ2 & L2 & E2 & R2 & M2).
  { apply NoDup_out_edges, (dr_wf _ _ _ R1). }
  { intros e I. eapply Permutation_in in I; [|eapply drep_out; exact R1]. apply filter_In in I. tauto. }
  unfold DG_remove_vertex, remove_vertex_with. cbv zeta. rewrite EQ1.
  replace (foreach G_remove_edge g1 (G_out_edges g1 u))
    with (foreach (fun (g : graph) (e : gedge) => if true then G_remove_edge g e else (g, Ok tt)) g1 (G_out_edges g1 u))
    by reflexivity.
  rewrite EQ2.
  assert (M1' : forall e, In e E1 <-> In e E /\ target e <> u).
  { intros e. rewrite M1. split; intros (A & B); (split; [exact A|]).
    - apply not_eq_sym, Nat.eqb_neq, B. eapply Permutation_in; [symmetry; eapply drep_edges; exact R|exact A].
    - intros _. apply Nat.eqb_neq. congruence. }
  assert (M2' : forall e, In e E2 <-> In e E /\ target e <> u /\ source e <> u).
  { intros e. rewrite M2, M1'. split.
    - intros ((A & B) & C). split; [exact A|]. split; [exact B|]. intros D.
      discriminate C. eapply Permutation_in; [symmetry; eapply drep_out; exact R1|].
      apply filter_In. rewrite Nat.eqb_eq. split; [apply M1'; tauto|exact D].
    - intros (A & B & C). split; [tauto|]. intros D. exfalso. apply C.
      eapply Permutation_in in D; [|eapply drep_out; exact R1].
      apply filter_In in D. destruct D as [_ D]. apply Nat.eqb_eq in D. exact D. }
  assert (R3 : drep g2 V (not_incident u E)).
  { eapply drep_ext; [exact R2|apply NoDup_filter, (dr_nd _ _ _ R)|].
    intros e. unfold not_incident. rewrite filter_In, M2', negb_true_iff, orb_false_iff, !Nat.eqb_neq. tauto. }
  clear M2 M2' R2 E2.
  destruct (mem_reflect u V) as [Iu|Nu].
  - exists (mkGraph (last_vertex_id g2) (ddel (adjacencies g2) u)). split; [cbn; congruence|].
    assert (D : dmem (adjacencies g2) u = true).
    { apply dmem_spec. rewrite (dr_keys _ _ _ R3). exact Iu. }
    rewrite D. split; [reflexivity|]. split; cbn [adjacencies].
    + apply wf_del, (dr_wf _ _ _ R3).
    + apply tight_del; [apply (dr_wf _ _ _ R3) | apply (dr_tight _ _ _ R3)].
    + rewrite dkeys_ddel by (apply (wf_keys _ (dr_wf _ _ _ R3))). rewrite (dr_keys _ _ _ R3).
      unfold srem. apply filter_ext. intros x. f_equal.
      destruct (eqb_spec u x), (Nat.eqb_spec x u); congruence.
    + apply (dr_nd _ _ _ R3).
    + intros e. rewrite asets_del by (apply (dr_wf _ _ _ R3)). rewrite (dr_in _ _ _ R3).
      destruct (eqb_spec (source e) u) as [P|P]; [|tauto]. split; [|intros []]. intros I.
      apply (dr_in _ _ _ R3) in I. unfold not_incident in I.
      apply filter_In in I. destruct I as [_ I]. apply negb_true_iff, orb_false_iff in I.
      destruct I as [I _]. apply Nat.eqb_neq in I. contradiction.
  - exists g2. split; [congruence|].
    assert (D : dmem (adjacencies g2) u = false).
    { apply dmem_false. rewrite (dr_keys _ _ _ R3). exact Nu. }
    rewrite D. split; [reflexivity|].
    eapply drep_ext; [exact R3|apply NoDup_filter, (dr_nd _ _ _ R)|].
    intros e. unfold not_incident, not_into. rewrite !filter_In, !negb_true_iff, orb_false_iff, !Nat.eqb_neq.
    split; [|tauto]. intros (A & B). split; [exact A|]. split; [|exact B]. intros C.
    apply (dr_in _ _ _ R) in A. apply asets_key in A. rewrite (dr_keys _ _ _ R), C in A. contradiction.
Qed.

Lemma drep_empty g E : drep g [] E -> E = [] /\ adjacencies g = [].
Proof.
  intros R. split.
  - destruct E as [|e E]; [reflexivity|]. exfalso.
    assert (I : In e (e :: E)) by (left; reflexivity).
    apply (dr_in _ _ _ R) in I. apply asets_key in I. rewrite (dr_keys _ _ _ R) in I. exact I.
  - assert (K := dr_keys _ _ _ R). destruct (adjacencies g); [reflexivity|discriminate].
Qed.

Lemma filter_remove_head x l :
  NoDup (x :: l) -> filter (fun v => negb (v =? x)) (x :: l) = l.
Proof.
  intros ND. inversion ND; subst. cbn. rewrite Nat.eqb_refl. cbn. apply filter_id.
  intros y I. apply negb_true_iff, Nat.eqb_neq. intros ->. contradiction.
Qed.

Lemma drep_clear g V E : drep g V E -> DG_clear g = (mkGraph 0 [], Ok tt).
Proof.
  intros R. unfold DG_clear, clear_with.
  pose (P := fun g' (rest : list nat) => last_vertex_id g' = 0 /\ exists E', drep g' rest E').
  assert (R0 : drep (mkGraph 0 (adjacencies g)) V E) by (destruct R; split; assumption).
  destruct (foreach_inv DG_remove_vertex P) with (l := V) (s := mkGraph 0 (adjacencies g))
    as (g' & EQ & L & E' & R').
  - intros g1 x rest (L & E1 & R1).
    destruct (drep_remove_vertex g1 _ _ x R1) as (g2 & L2 & H).
    assert (M : mem x (x :: rest) = true) by (apply mem_spec; left; reflexivity).
    rewrite M in H. destruct H as (EQ & R2). exists g2. split; [exact EQ|]. split; [congruence|].
    rewrite filter_remove_head in R2; [eauto|].
    rewrite <- (dr_keys _ _ _ R1). apply (wf_keys _ (dr_wf _ _ _ R1)).
  - split; [reflexivity|]. eauto.
  - unfold G_vertices. cbn [adjacencies]. rewrite (dr_keys _ _ _ R), EQ.
    apply drep_empty in R'. destruct g' as [l a]. cbn in *. destruct R' as [_ ->]. subst. reflexivity.
Qed.

Lemma counter_filter k V f : counter_ok k V -> counter_ok k (filter f V).
Proof. intros C v I. apply filter_In in I. apply C. tauto. Qed.

Lemma drep_add_vertex g V E : drep g V E -> ~ In (last_vertex_id g) V ->
  drep (fst (G_add_vertex g)) (V ++ [last_vertex_id g]) E.
Proof.
  intros R NI. assert (NI' := NI). rewrite <- (dr_keys _ _ _ R) in NI'.
  unfold G_add_vertex; cbn [fst]. split; cbn [adjacencies].
  - apply wf_new; [apply (dr_wf _ _ _ R)|exact NI'].
  - apply tight_new; [apply (dr_tight _ _ _ R)].
  - rewrite dkeys_dset_new by exact NI'. rewrite (dr_keys _ _ _ R). reflexivity.
  - apply (dr_nd _ _ _ R).
  - intros e. rewrite asets_new by exact NI'. apply (dr_in _ _ _ R).
Qed.

Lemma d_step_ok g a op : drep_full g a ->
  drep_full (fst (DG_call g op)) (fst (d_step a op)) /\ snd (DG_call g op) = snd (d_step a op).
Proof.
  intros (R & L & C). destruct op as [|u v|e|u|]; cbn [DG_call d_step].
  - cbn. rewrite L. split; [|reflexivity]. split; [|split].
    + cbn. rewrite <- L. apply (drep_add_vertex g _ _ R).
      rewrite L. intros I. apply C in I. lia.
    + reflexivity.
    + cbn. intros v I. apply in_app_iff in I. destruct I as [I|[<-|[]]]; [apply C in I|]; lia.
  - destruct (mem_reflect u (verts a)) as [I|NI].
    + destruct (drep_add_edge g _ _ u v R I) as (g' & -> & L' & R').
      cbn. split; [|reflexivity]. split; [exact R'|]. split; [cbn; congruence|exact C].
    + unfold G_add_edge. rewrite (proj2 (dget_None (adjacencies g) u)).
      2:{ rewrite (dr_keys _ _ _ R). exact NI. }
      cbn. split; [|reflexivity]. split; [exact R|]. split; assumption.
  - assert (H := drep_remove_edge g _ _ e R).
    destruct (between (source e) (target e) (es a)).
    + rewrite H. cbn. split; [|reflexivity]. split; [exact R|]. split; assumption.
    + destruct H as (g' & -> & L' & R'). cbn. split; [|reflexivity]. split; [exact R'|].
      split; [cbn; congruence|exact C].
  - destruct (drep_remove_vertex g _ _ u R) as (g' & L' & H).
    destruct (mem u (verts a)); destruct H as (-> & R'); cbn; (split; [|reflexivity]);
      (split; [exact R'|]); (split; [cbn; congruence|]); [apply counter_filter|]; exact C.
  - rewrite (drep_clear g _ _ R). cbn. split; [|reflexivity]. split; [|split; [reflexivity|intros ? []]].
    split; cbn; try apply wf_adj_nil; try constructor; intros; try discriminate; tauto.
Qed.

Lemma G_init_rep n : drep_full (G_init n) (a_init n).
Proof.
  unfold G_init. enough (H : forall k g E, drep g (seq 0 k) E -> last_vertex_id g = k ->
    drep (G_add_vertices n g) (seq 0 (k + n)) E /\ last_vertex_id (G_add_vertices n g) = k + n).
  { destruct (H 0 (mkGraph 0 []) []) as (R & L); [|reflexivity|].
    - split; cbn; try apply wf_adj_nil; try constructor; intros; try discriminate; tauto.
    - split; [exact R|]. split; [exact L|]. intros v I. apply in_seq in I. cbn. lia. }
  induction n as [|n IH]; intros k g E R L; cbn [G_add_vertices].
  - rewrite Nat.add_0_r. auto.
  - replace (k + S n) with (S k + n) by lia. apply IH; [|cbn; congruence].
    rewrite seq_S. cbn [Nat.add]. rewrite <- L at 2. apply drep_add_vertex; [exact R|].
    rewrite L. intros I. apply in_seq in I. lia.
Qed.

Lemma run_refine {S} (call : S -> gop -> S * gout) (step : agraph -> gop -> agraph * gout)
    (R : S -> agraph -> Prop) :
  (forall s a op, R s a -> R (fst (call s op)) (fst (step a op)) /\ snd (call s op) = snd (step a op)) ->
  forall ops s a, R s a ->
    R (fst (run call s ops)) (fst (run step a ops)) /\ snd (run call s ops) = snd (run step a ops).
Proof.
  intros H. induction ops as [|op ops IH]; intros s a Rs; cbn; [tauto|].
  destruct (H s a op Rs) as (H1 & H2).
  destruct (call s op) as [s1 o1], (step a op) as [a1 o2]; cbn in *.
  destruct (IH s1 a1 H1) as (H3 & H4).
  destruct (run call s1 ops), (run step a1 ops); cbn in *. split; [exact H3|congruence].
Qed.

Lemma run_refine_closed {S} (call : S -> gop -> S * gout) (step : agraph -> gop -> agraph * gout)
    (R : S -> agraph -> Prop) :
  (forall s a op, R s a -> (match op with OpAddEdge u v => In u (verts a) /\ In v (verts a) | _ => True end) ->
     R (fst (call s op)) (fst (step a op)) /\ snd (call s op) = snd (step a op)) ->
  forall ops s a, R s a -> closed_prog step a ops ->
    R (fst (run call s ops)) (fst (run step a ops)) /\ snd (run call s ops) = snd (run step a ops).
Proof.
  intros H. induction ops as [|op ops IH]; intros s a Rs; cbn; [tauto|]. intros (Hc & Hcs).
  destruct (H s a op Rs Hc) as (H1 & H2).
  destruct (call s op) as [s1 o1], (step a op) as [a1 o2]; cbn in *.
  destruct (IH s1 a1 H1 Hcs) as (H3 & H4).
  destruct (run call s1 ops), (run step a1 ops); cbn in *. split; [exact H3|congruence].
Qed.

Lemma sof_id {A} `{EqDec A} (l : list A) : NoDup l -> sof l = l.
Proof.
  unfold sof, sunion. enough (G : forall l acc, NoDup (acc ++ l) ->
    fold_left (fun acc x => sadd x acc) l acc = acc ++ l) by (intros ND; apply (G l []); exact ND).
  clear l. induction l as [|x l IH]; intros acc ND; cbn; [rewrite app_nil_r; reflexivity|].
  unfold sadd at 2. destruct (mem_reflect x acc) as [I|NI].
  - exfalso. apply NoDup_app_inv in ND. destruct ND as (_ & _ & D). apply (D x I). left. reflexivity.
  - rewrite IH; rewrite <- app_assoc; [reflexivity | exact ND].
Qed.

Lemma only_perm l l' : Permutation l l' -> only l = only l'.
Proof.
  intros P. assert (L := Permutation_length P).
  destruct l as [|x [|y l]], l' as [|x' [|y' l']]; try discriminate; try reflexivity.
  apply Permutation_length_1 in P. subst. reflexivity.
Qed.

Lemma filter_perm {A} (f : A -> bool) l l' : Permutation l l' -> Permutation (filter f l) (filter f l').
Proof.
  induction 1; cbn.
  - constructor.
  - destruct (f x); [constructor|]; assumption.
  - destruct (f x), (f y); try constructor; apply Permutation_refl.
  - etransitivity; eassumption.
Qed.

Lemma nonempty_perm {A} (l l' : list A) : Permutation l l' -> nonempty l = nonempty l'.
Proof.
  intros P. apply Permutation_length in P. destruct l, l'; try discriminate; reflexivity.
Qed.

Lemma G_edge_only g u v l : wf_adj (adjacencies g) -> Permutation (G_out_edges g u) l ->
  G_edge g u v = only (filter (fun e => target e =? v) l).
Proof.
  intros W P. unfold G_edge. rewrite sof_id by (apply NoDup_filter, NoDup_out_edges, W).
  change (only (filter (fun e => target e =? v) (G_out_edges g u)) = only (filter (fun e => target e =? v) l)).
  apply only_perm, filter_perm, P.
Qed.

Lemma filter_filter_between u v E :
  filter (fun e => target e =? v) (filter (fun e => source e =? u) E) = between u v E.
Proof.
  unfold between. induction E as [|e E IH]; cbn; [reflexivity|].
  destruct (source e =? u); cbn; [|exact IH]. destruct (target e =? v); cbn; rewrite IH; reflexivity.
Qed.

Theorem directed_refinement : forall n ops,
  let '(g, outs) := run DG_call (G_init n) ops in
  let '(a, outs') := run d_step (a_init n) ops in
  outs = outs' /\
  G_vertices g = verts a /\
  Permutation (G_edges g) (es a) /\
  (forall u, Permutation (G_out_edges g u) (a_out a u)) /\
  (forall u v, G_edge g u v = only (between u v (es a))) /\
  G_num_vertices g = length (verts a) /\
  DG_num_edges g = length (es a) /\
  (forall u, G_out_degree g u = length (a_out a u)) /\
  G_has_vertex g = nonempty (verts a) /\
  DG_has_edge g = nonempty (es a).
Proof.
  intros n ops.
  destruct (run_refine DG_call d_step drep_full d_step_ok ops _ _ (G_init_rep n)) as (R & O).
  destruct (run DG_call (G_init n) ops) as [g outs], (run d_step (a_init n) ops) as [a outs'].
  cbn in R, O. destruct R as (R & L & C).
  assert (PE := drep_edges _ _ _ R). assert (PO := fun u => drep_out _ _ _ u R).
  assert (KV : G_vertices g = verts a) by (apply (dr_keys _ _ _ R)).
  split; [exact O|]. split; [exact KV|]. split; [exact PE|]. split; [exact PO|].
  split; [intros u v; rewrite <- filter_filter_between; apply G_edge_only; [apply (dr_wf _ _ _ R)|apply PO]|].
  split; [unfold G_num_vertices; rewrite KV; reflexivity|].
  split; [apply Permutation_length, PE|]. split; [intros u; apply Permutation_length, PO|].
  split; [unfold G_has_vertex; rewrite KV; reflexivity|]. exact (nonempty_perm _ _ PE).
Qed.
