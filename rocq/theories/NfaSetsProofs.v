(** Lemmas about the symbols kept in the nested dictionaries of Nfa. *)
From Verif Require Import Base BaseProofs Graph GraphProofs Automaton AutomatonProofs Nfa NfaSpec NfaProofs NfaSets NfaSetsSpec.

Section P.
  Context {A : Type} {EA : EqDec A}.
  (** (q, a) is a key of the nested dictionaries *)
  Definition noted_in (g : nfa A) (q : nat) (a : A) : Prop := exists arn, dget (nf_adj g) q = Some arn /\ In a (dkeys arn).
  Lemma alphabet_iff (g : nfa A) a : nwf (nf_adj g) -> In a (N_alphabet g) <-> a <> nf_eps g /\ exists q, noted_in g q a.
  Proof.
    intros [W _]. unfold N_alphabet. rewrite In_sof, in_flat_map. split.
    - intros ([q arn] & I & J). apply filter_In in J. destruct J as [J N]. split; [destruct (eqb_spec a (nf_eps g)); [discriminate|assumption]|]. exists q, arn. split; [apply In_dget; assumption|exact J].
    - intros (N & q & arn & I & J). exists (q, arn). split; [apply dget_In, I|]. apply filter_In. split; [exact J|]. destruct (eqb_spec a (nf_eps g)); [contradiction|reflexivity].
  Qed.
  Lemma sigma_iff (g : nfa A) q : exists s, N_sigma g q = Some s /\ forall a, In a s <-> a <> nf_eps g /\ exists p, eps_star (ntrans g) (nf_eps g) q p /\ noted_in g p a.
  Proof.
    unfold N_sigma. destruct (delta_epsilon_spec g [q]) as (s1 & -> & H1). cbn [obind]. eexists. split; [reflexivity|]. intros a. rewrite In_sof, in_flat_map. split.
    - intros (p & Ip & J). apply H1 in Ip. destruct Ip as (q' & [<-|[]] & S). destruct (dget (nf_adj g) p) as [arn|] eqn:E; [|destruct J]. apply filter_In in J. destruct J as [J N].
      split; [destruct (eqb_spec a (nf_eps g)); [discriminate|assumption]|]. exists p. split; [exact S|]. exists arn. auto.
    - intros (N & p & S & arn & E & J). exists p. split; [apply H1; exists q; split; [left; reflexivity|exact S]|]. rewrite E. apply filter_In. split; [exact J|]. destruct (eqb_spec a (nf_eps g)); [contradiction|reflexivity].
  Qed.
  Lemma ntrans_noted (g : nfa A) q a r : ntrans g q a r -> noted_in g q a.
  Proof. unfold ntrans, N_get, noted_in. intros Y. destruct (dget (nf_adj g) q) as [arn|]; [|destruct Y]. exists arn. split; [reflexivity|]. destruct (dget arn a) eqn:E; [|destruct Y]. eapply dget_Some_key, E. Qed.

  Lemma noted_dset (g : nfa A) q arn p a : noted_in (nf_set_adj g (dset (nf_adj g) q arn)) p a <-> (p = q /\ In a (dkeys arn)) \/ (p <> q /\ noted_in g p a).
  Proof.
    unfold noted_in. cbn [nf_adj nf_set_adj]. rewrite dget_dset. destruct (eqb_spec p q) as [->|N].
    - split; [intros (x & [= <-] & I); auto|]. intros [[_ I]|[N _]]; [eauto|contradiction].
    - split; [auto|]. intros [[E _]|[_ I]]; [contradiction|exact I].
  Qed.
  Lemma noted_add_edge (g : nfa A) q r b p a : noted_in (fst (N_add_edge g q r b)) p a <-> (p = q /\ a = b) \/ noted_in g p a.
  Proof.
    unfold N_add_edge. cbn [fst]. rewrite noted_dset, In_dkeys_dset. unfold noted_in at 2. split.
    - intros [[-> [->|I]]|[N I]]; auto. right. unfold noted_in. destruct (dget (nf_adj g) q) as [arn|]; [eauto|destruct I].
    - destruct (eqb_spec p q) as [->|N].
      + intros [[_ ->]|(arn & -> & I)]; auto.
      + intros [[E _]|I]; [contradiction|auto].
  Qed.
  Lemma noted_remove_edge {D} (g : nfa A) (e : edge (A * D)) p a : noted_in (fst (N_remove_edge g e)) p a <-> noted_in g p a.
  Proof.
    unfold N_remove_edge. destruct (dget (nf_adj g) (source e)) as [arn|] eqn:E; [|reflexivity]. destruct (dget arn (fst (distinguisher e))) as [rn|] eqn:E1; [|reflexivity].
    destruct (dmem rn (target e)); [|reflexivity]. cbn [fst]. rewrite noted_dset, In_dkeys_dset. apply dget_Some_key in E1. destruct (eqb_spec p (source e)) as [->|N].
    - unfold noted_in. rewrite E. split; [|intros (x & [= <-] & I); auto]. intros [[_ [->|I]]|[N _]]; [eauto|eauto|contradiction].
    - intuition.
  Qed.
  Lemma noted_foreach {X} (f : nfa A -> X -> nfa A * res unit) l : (forall g x p a, noted_in (fst (f g x)) p a <-> noted_in g p a) -> forall g p a, noted_in (fst (foreach f g l)) p a <-> noted_in g p a.
  Proof.
    intros H. induction l as [|x l IH]; intros g p a; cbn [foreach]; [reflexivity|]. specialize (H g x p a). destruct (f g x) as [g' [u|e]]; cbn [fst] in *; [rewrite IH|]; exact H.
  Qed.
  Lemma noted_remove_vertex (g : nfa A) u p a : nwf (nf_adj g) -> noted_in (fst (N_remove_vertex g u)) p a <-> p <> u /\ noted_in g p a.
  Proof.
    intros W. unfold N_remove_vertex.
    destruct (foreach_remove (fun e => u =? target e) (N_edges g) g W) as (g1 & E1 & W1 & _).
    destruct (foreach_remove (fun e => true) (N_out_edges g1 u) g1 W1) as (g2 & E2 & W2 & _). change (foreach N_remove_edge g1 (N_out_edges g1 u) = (g2, Ok tt)) in E2.
    assert (H1 : noted_in g1 p a <-> noted_in g p a).
    { match type of E1 with foreach ?f g ?l = _ => pose proof (noted_foreach f l) as H end. specialize (H ltac:(intros h x q b; cbv beta; destruct (u =? target x); [apply noted_remove_edge|reflexivity]) g p a). rewrite E1 in H. exact H. }
    assert (H2 : noted_in g2 p a <-> noted_in g1 p a) by (pose proof (noted_foreach N_remove_edge (N_out_edges g1 u) (fun g x p a => noted_remove_edge g x p a) g1 p a) as H; rewrite E2 in H; exact H).
    rewrite E1, E2, <- H1, <- H2. destruct (dmem (nf_adj g2) u) eqn:M; cbn [fst].
    - unfold noted_in. cbn [nf_adj nf_set_adj]. rewrite dget_ddel by apply W2. destruct (eqb_spec p u) as [->|N]; [|tauto]. split; [intros (x & [=] & _)|intros [N _]; contradiction].
    - split; [|tauto]. intros I. split; [|exact I]. intros ->. destruct I as (arn & E & _). apply dget_Some_key in E. apply dmem_false in M. contradiction.
  Qed.
  Lemma noted_call (g : nfa A) s eps m op : nrep g s eps -> (forall q a, noted_in g q a <-> In (q, a) m) -> forall q a, noted_in (fst (N_call g op)) q a <-> In (q, a) (noted_step s m op).
  Proof.
    intros R H q a. pose proof (N_call_rep g s eps op R) as R'. destruct op as [|x r b|x r b|u|x b|qs|x b|]; cbn [N_call noted_step] in *.
    - unfold N_add_vertex. cbn [fst]. rewrite filter_In, <- H. change (noted_in (nf_set_adj g (dset (nf_adj g) (nf_last g) [])) q a <-> noted_in g q a /\ negb (fst (q, a) =? an_next s) = true). rewrite noted_dset, (r_next _ _ _ R). cbn [fst]. destruct (Nat.eqb_spec q (an_next s)) as [->|N]; cbn; intuition congruence.
    - pose proof (noted_add_edge g x r b q a) as E. destruct (N_add_edge g x r b) as [g' [[e c]|z]]; cbn [fst] in *; rewrite E, H; cbn [In]; intuition congruence.
    - pose proof (noted_remove_edge g (Edge x r (b, tt)) q a) as E. destruct (N_remove_edge g _) as [g' [c|z]]; cbn [fst] in *; rewrite E; apply H.
    - pose proof (noted_remove_vertex g u q a (r_wf _ _ _ R)) as E. rewrite filter_In, <- H. cbn [fst]. destruct (N_remove_vertex g u) as [g' [c|z]]; cbn [fst] in *; rewrite E, negb_true_iff, Nat.eqb_neq; tauto.
    - apply H.
    - apply H.
    - apply H.
    - cbn [In]. split; [|intros []]. intros (arn & E & _). apply dget_Some_key in E. pose proof (r_V _ _ _ R') as V. unfold N_vertices in V. rewrite V in E. destruct s. destruct E.
  Qed.
  Lemma noted_runs ops : forall (g : nfa A) s eps m, nrep g s eps -> (forall q a, noted_in g q a <-> In (q, a) m) ->
    forall q a, noted_in (fst (runs N_call g ops)) q a <-> In (q, a) (noted s m ops).
  Proof.
    induction ops as [|op ops IH]; intros g s eps m R H q a; cbn [runs noted]; [apply H|]. pose proof (N_call_rep g s eps op R) as R'. pose proof (noted_call g s eps m op R H) as H'. destruct (N_call g op) as [g' o]. cbn [fst] in *.
    specialize (IH g' _ eps _ R' H' q a). destruct (runs N_call g' ops) as [g2 os]. exact IH.
  Qed.
  Lemma noted_init n I (eps : A) q a : ~ noted_in (N_init n I eps) q a.
  Proof.
    unfold N_init. assert (K : forall n (g : nfa A), (forall q a, ~ noted_in g q a) -> forall q a, ~ noted_in (N_add_vertices n g) q a).
    { clear. induction n as [|n IH]; intros g H; [exact H|]. cbn [N_add_vertices]. apply IH. intros q a. change (~ noted_in (nf_set_adj g (dset (nf_adj g) (nf_last g) [])) q a). rewrite noted_dset. intros [[_ []]|[_ X]]. exact (H q a X). }
    apply K. intros q' a' (arn & E & _). discriminate E.
  Qed.
  (** without removals, what is noted are the transitions *)
  Lemma noted_keeps ops : forall (s : anfa A) m, forallb keeps ops = true -> (forall q a, In (q, a) m <-> exists r, In (q, a, r) (an_T s)) ->
    forall q a, In (q, a) (noted s m ops) <-> exists r, In (q, a, r) (an_T (fold_left an_step ops s)).
  Proof.
    induction ops as [|op ops IH]; intros s m K H; [exact H|]. cbn [forallb] in K. apply andb_true_iff in K. destruct K as [K1 K2]. cbn [noted fold_left]. apply IH; [exact K2|]. intros q a.
    destruct s as [k V T I F]. destruct op as [|x r b|x r b|u|x b|qs|x b|]; try discriminate K1; cbn [noted_step an_step an_T an_next] in *; try apply H.
    - rewrite filter_In, H. cbn [fst]. split; [intros [[r J] N]; exists r; apply filter_In; auto|]. intros [r J]. apply filter_In in J. destruct J as [J N]. split; [exists r|]; assumption.
    - cbn [In]. rewrite H. split.
      + intros [[= -> ->]|[r' J]]; [exists r|exists r']; apply In_sadd; auto.
      + intros [r' J]. apply In_sadd in J. destruct J as [[= -> -> ->]|J]; [auto|]. right. exists r'. exact J.
    - split; [intros []|intros [r []]].
  Qed.
  (** edges() lists each transition once *)
  Lemma NoDup_blocks {X Y K : Type} (f : X -> list Y) (key : Y -> K) (kx : X -> K) l : NoDup (map kx l) -> (forall x, In x l -> NoDup (f x)) -> (forall x y, In y (f x) -> key y = kx x) -> NoDup (flat_map f l).
  Proof.
    intros N B KY. induction l as [|x l IH]; [constructor|]. cbn [map flat_map] in *. inversion N as [|? ? NI N']; subst. apply NoDup_app_intro; [apply B; left; reflexivity|apply IH; [exact N'|intros y I; apply B; right; exact I]|].
    intros y I J. apply in_flat_map in J. destruct J as (x' & I' & J). apply NI. rewrite <- (KY x y I), (KY x' y J). apply in_map, I'.
  Qed.
  Definition triple (e : edge (A * list nat)) : nat * A * nat := (source e, fst (distinguisher e), target e).
  Lemma NoDup_triples (g : nfa A) : nwf (nf_adj g) -> NoDup (map triple (N_edges g)).
  Proof.
    intros [N1 N2]. unfold N_edges. assert (E : map triple (flat_map (fun '(q, arn) => out_of q arn) (nf_adj g)) = flat_map (fun x => map triple (out_of (fst x) (snd x))) (nf_adj g)).
    { clear. induction (nf_adj g) as [|[q arn] l IH]; [reflexivity|]. cbn [flat_map fst snd]. rewrite map_app, IH. reflexivity. }
    rewrite E. clear E. apply (NoDup_blocks _ (fun t => fst (fst t)) fst); [exact N1| |].
    - intros [q arn] I. cbn [fst snd]. apply In_dget in I; [|exact N1]. destruct (N2 q arn I) as [N3 N4]. unfold out_of.
      assert (E : map triple (flat_map (fun '(a, rn) => map (fun '(r, n) => Edge q r (a, n)) rn) arn) = flat_map (fun x => map (fun y => (q, fst x, fst y)) (snd x)) arn).
      { clear. induction arn as [|[a rn] l IH]; [reflexivity|]. cbn [flat_map fst snd]. rewrite map_app, IH, map_map. f_equal. apply map_ext. intros [r n]. reflexivity. }
      rewrite E. apply (NoDup_blocks _ (fun t => snd (fst t)) fst); [exact N3| |].
      + intros [a rn] J. cbn [fst snd]. apply In_dget in J; [|exact N3]. pose proof (N4 a rn J) as N5. rewrite <- (map_map fst (fun r => (q, a, r))). apply NoDup_map_inj_in; [exact N5|]. intros x y _ _ [=]. assumption.
      + intros [a rn] y J. cbn [fst snd] in J. apply in_map_iff in J. destruct J as (z & <- & _). reflexivity.
    - intros [q arn] y J. cbn [fst snd] in *. apply in_map_iff in J. destruct J as (e & <- & J). unfold out_of in J. apply in_flat_map in J. destruct J as ([a rn] & _ & J). apply in_map_iff in J. destruct J as ([r n] & <- & _). reflexivity.
  Qed.
  Lemma NoDup_an_T ops : forall s : anfa A, NoDup (an_T s) -> NoDup (an_T (fold_left an_step ops s)).
  Proof.
    induction ops as [|op ops IH]; intros s N; [exact N|]. cbn [fold_left]. apply IH. destruct s as [k V T I F]. cbn [an_T] in N. destruct op; cbn [an_step an_T]; try exact N; try (apply NoDup_filter, N).
    - apply NoDup_sadd, N.
    - constructor.
  Qed.
  Lemma num_edges_ok (g : nfa A) s eps : nrep g s eps -> NoDup (an_T s) -> N_num_edges g = length (an_T s).
  Proof.
    intros [W Nx V T I F E] N. unfold N_num_edges. rewrite <- (map_length triple). apply Permutation_length, NoDup_Permutation; [apply NoDup_triples, W|exact N|]. intros [[q a] r]. rewrite <- T, (In_N_edges_ntrans g q r a W), in_map_iff. split.
    - intros ([x y [b n]] & [= -> -> ->] & J). exists n. exact J.
    - intros [n J]. exists (Edge q r (a, n)). split; [reflexivity|exact J].
  Qed.
End P.
