(** Theorem C84: moore_determination is the subset construction. *)
From Verif Require Import Base BaseProofs Graph GraphProofs Automaton AutomatonProofs Nfa NfaSpec NfaProofs NfaProofs2 TNfa.
#[local] Arguments dkeys : simpl never.

Section L.
  Context {A : Type} {EA : EqDec A}.
  Variables (g : nfa A) (complete : bool).
  Notation T := (ntrans g).
  Notation eps := (nf_eps g).

  Lemma read_subset d m w : MI g complete d m [] None [] -> forall s q, In (s, q) m -> ~ In eps w ->
    (forall r, A_delta_word d (Some q) w = Some r -> exists t, In (t, r) m /\ forall x, In x t <-> exists p, In p s /\ nrun T eps p w x) /\
    (A_delta_word d (Some q) w = None -> forall p x, In p s -> ~ nrun T eps p w x).
  Proof.
    intros I. induction w as [|a w IH]; intros s q Is NE.
    - cbn. split; [|discriminate]. intros r [= <-]. exists s. split; [exact Is|]. intros x. destruct (m_good _ _ _ _ _ _ _ I _ _ Is) as [C _]. split.
      + intros J. exists x. split; [exact J|constructor].
      + intros (p & J & R). apply nrun_eps_star in R. apply (C p x J R).
    - assert (Na : a <> eps) by (intros ->; apply NE; left; reflexivity). assert (NE' : ~ In eps w) by (intros X; apply NE; right; exact X).
      destruct (m_good _ _ _ _ _ _ _ I _ _ Is) as [C _]. cbn [A_delta_word]. destruct (A_delta d q a) as [r|] eqn:D.
      + destruct (m_sound _ _ _ _ _ _ _ I _ _ _ D) as (s' & t & Is' & It & HS & _). rewrite (m_inj g complete _ _ _ _ _ _ _ _ I Is' Is) in HS.
        destruct (IH t r It NE') as [H1 H2]. split.
        * intros r' E. destruct (H1 r' E) as (t' & It' & Ht'). exists t'. split; [exact It'|]. intros x. rewrite Ht'. apply (nrun_step g s a t w x C Na HS).
        * intros E p x Ip R. destruct (proj2 (nrun_step g s a t w x C Na HS)) as (p' & Ip' & R'); [exists p; auto|]. apply (H2 E p' x Ip' R').
      + assert (X : A_delta_word d None w = None) by (destruct w; reflexivity). rewrite X. split; [discriminate|]. intros _ p x Ip R. apply nrun_cons_inv in R. destruct R as (p' & r & St & _ & Y & _).
        refine (m_done _ _ _ _ _ _ _ I s q a Is _ _ _ D); [intros []| |discriminate]. destruct (sigma_total g complete s) as (sg & ES & _ & _ & HC). exists sg. split; [exact ES|].
        eapply HC; [exact Na|exact Ip|]. exists p', r. split; [exact St|]. split; [exact Y|constructor].
  Qed.

  Lemma m_index (m : list (list nat * nat)) : map snd m = seq 0 (length m) -> forall s q, In (s, q) m -> q < length m /\ nth q (map fst m) [] = s.
  Proof.
    intros E s q J. destruct (In_nth m (s, q) ([], 0) J) as (i & L & Hi). assert (Q : nth i (map snd m) 0 = i) by (rewrite E, seq_nth; lia).
    change 0 with (snd (@nil nat, 0)) in Q at 1. rewrite map_nth, Hi in Q. cbn in Q. subst i. split; [exact L|].
    change (@nil nat) with (fst (@nil nat, 0)). rewrite map_nth, Hi. reflexivity.
  Qed.
  Lemma m_index' (m : list (list nat * nat)) : map snd m = seq 0 (length m) -> forall q, q < length m -> In (nth q (map fst m) [], q) m.
  Proof.
    intros E q L. assert (J : In (nth q m ([], 0)) m) by (apply nth_In, L). destruct (nth q m ([], 0)) as [s q'] eqn:N. assert (Q : nth q (map snd m) 0 = q) by (rewrite E, seq_nth; lia).
    change 0 with (snd (@nil nat, 0)) in Q at 1. rewrite map_nth, N in Q. cbn in Q. subst q'. change (@nil nat) with (fst (@nil nat, 0)). rewrite map_nth, N. exact J.
  Qed.
  Lemma distinct_index (ks : list (list nat)) : distinct ks -> forall i j, i < length ks -> j < length ks -> (forall x, In x (nth i ks []) <-> In x (nth j ks [])) -> i = j.
  Proof.
    induction 1 as [|s ks F D IH]; intros i j Li Lj H; [cbn in Li; lia|]. rewrite Forall_forall in F.
    assert (G : forall k, k < length ks -> (forall x, In x s <-> In x (nth k ks [])) -> False).
    { intros k Lk Hk. pose proof (F (nth k ks []) (nth_In _ _ Lk)) as Q. rewrite (proj2 (seteqb_spec s (nth k ks [])) Hk) in Q. discriminate. }
    destruct i as [|i], j as [|j]; cbn in *; [reflexivity| | |].
    - exfalso. apply (G j); [lia|exact H].
    - exfalso. apply (G i); [lia|]. intros x. symmetry. apply H.
    - f_equal. apply IH; [lia|lia|exact H].
  Qed.
  Lemma delta_word_app (d : aut A) u v : forall q, A_delta_word d q (u ++ v) = A_delta_word d (A_delta_word d q u) v.
  Proof. induction u as [|a u IH]; intros q; [reflexivity|]. cbn. destruct q as [q|]; [apply IH|]. destruct v; reflexivity. Qed.
End L.

Section T.
  Context {A : Type} {EA : EqDec A}.
  (** some run from an initial state spells w and ends in t *)
  Definition reaches (s : anfa A) (eps : A) (w : list A) (t : nat) : Prop := exists q, In q (an_I s) /\ nrun (steps s) eps q w t.

  (** C84. The states of the automaton are the sets of states that some word reaches in the NFA, each one once. *)
  Theorem C84_subset_construction n ini (eps : A) ops complete opop osym fuel U :
    let g := built n ini eps ops in
    let s := described n ini ops in
    valid_order opop -> valid_order osym -> 2 ^ (length (nf_init g) + N_num_edges g) + 1 <= fuel ->
    (forall q, In q (an_I s) -> In q U) -> (forall q a r, steps s q a r -> In r U) ->
    exists d subset, moore_determination g complete opop osym fuel = Some (d, Ok tt) /\ A_initial d = Some 0 /\
      (* reading w leads to the state of the set of the states reached by w *)
      (forall w q, ~ In eps w -> A_delta_word d (Some 0) w = Some q -> In q (A_vertices d) /\ forall t, In t (subset q) <-> reaches s eps w t) /\
      (forall w t, ~ In eps w -> A_delta_word d (Some 0) w = None -> ~ reaches s eps w t) /\
      (* every state is accessible, and two states are different sets *)
      (forall q, In q (A_vertices d) -> exists w, ~ In eps w /\ A_delta_word d (Some 0) w = Some q) /\
      (forall q q', In q (A_vertices d) -> In q' (A_vertices d) -> (forall t, In t (subset q) <-> In t (subset q')) -> q = q') /\
      (forall q, In q (A_vertices d) -> (A_is_final d q = true <-> exists t, In t (subset q) /\ an_F s t = true)) /\
      length (A_vertices d) <= 2 ^ length U.
  Proof.
    intros g s OP OS L HI HT. pose proof (N_runs_rep n ini eps ops) as R. fold (built n ini eps ops) in R. fold (described n ini ops) in R. fold g s in R.
    destruct (moore_run g complete opop osym OP OS fuel) as (d & E & _ & _ & HV & m & q0s & I & RO & I0 & H0).
    { assert (X : length (universe g) <= length (nf_init g) + N_num_edges g).
      { unfold universe, N_num_edges. rewrite <- (map_length target (N_edges g)). rewrite <- app_length. apply NoDup_incl_length; [apply NoDup_sof|]. intros x. apply In_sof. }
      assert (Y : 2 ^ length (universe g) <= 2 ^ (length (nf_init g) + N_num_edges g)) by (apply Nat.pow_le_mono_r; lia). lia. }
    assert (EQ : nf_eps g = eps) by apply (r_eps _ _ _ R). rewrite EQ in *.
    pose proof (m_num _ _ _ _ _ _ _ I) as NUM. exists d, (fun q => nth q (map fst m) []). split; [exact E|]. split; [apply (m_q0 _ _ _ _ _ _ _ I)|].
    assert (RW : forall w q x, nrun (ntrans g) eps q w x <-> nrun (steps s) eps q w x) by (intros; split; apply nrun_ext; intros; apply (r_T _ _ _ R); assumption).
    assert (RE : forall w t, (exists p, In p q0s /\ nrun (ntrans g) eps p w t) <-> reaches s eps w t).
    { intros w t. unfold reaches. rewrite <- (r_I _ _ _ R). split.
      - intros (p & Ip & Rp). apply H0 in Ip. destruct Ip as (q & Iq & St). exists q. split; [exact Iq|]. apply RW. rewrite <- EQ in *. eapply nrun_pre; eassumption.
      - intros (q & Iq & Rq). exists q. split; [apply H0; exists q; split; [exact Iq|constructor]|apply RW, Rq]. }
    assert (VV : forall q, In q (A_vertices d) <-> q < length m) by (intros q; rewrite (m_V _ _ _ _ _ _ _ I), in_seq; lia).
    assert (RS := fun w => read_subset g complete d m w I q0s 0 I0). rewrite EQ in RS.
    split; [|split; [|split; [|split; [|split]]]].
    - intros w q NE W. destruct (RS w NE) as [H1 _]. destruct (H1 q W) as (t & It & Ht). destruct (m_index m NUM t q It) as [Lq Nq]. split; [apply VV, Lq|]. rewrite Nq. intros x. rewrite Ht. apply RE.
    - intros w t NE W Q. destruct (RS w NE) as [_ H2]. apply RE in Q. destruct Q as (p & Ip & Rp). apply (H2 W p t Ip Rp).
    - intros q Lq. apply VV in Lq. revert Lq. induction q as [q IH] using lt_wf_ind. intros Lq. destruct (Nat.eq_dec q 0) as [->|Nq]; [exists []; split; [intros []|reflexivity]|].
      destruct (RO q ltac:(lia)) as (p & a & Lp & Dp). destruct (IH p Lp ltac:(lia)) as (w & NE & W). exists (w ++ [a]). destruct (HV _ _ _ Dp) as (_ & _ & Na). split.
      + intros J. apply in_app_iff in J. destruct J as [J|[J|[]]]; [contradiction|congruence].
      + rewrite delta_word_app, W. cbn. rewrite Dp. reflexivity.
    - intros q q' Vq Vq' H. apply VV in Vq, Vq'. apply (distinct_index (map fst m) (m_dist _ _ _ _ _ _ _ I)); [rewrite map_length; exact Vq|rewrite map_length; exact Vq'|exact H].
    - intros q Vq. apply VV in Vq. rewrite (m_fin _ _ _ _ _ _ _ I _ _ (m_index' m NUM q Vq)), existsb_exists. split; intros (t & It & Ft); exists t; (split; [exact It|]).
      + rewrite <- (r_F _ _ _ R). exact Ft.
      + rewrite <- (r_F _ _ _ R) in Ft. exact Ft.
    - rewrite (m_V _ _ _ _ _ _ _ I), seq_length, <- (map_length fst). apply distinct_bound; [apply (m_dist _ _ _ _ _ _ _ I)|]. intros k x Ik Ix. apply in_map_iff in Ik. destruct Ik as ([k' q] & <- & Ik).
      destruct (m_good _ _ _ _ _ _ _ I _ _ Ik) as [_ G]. specialize (G x Ix). unfold universe in G. apply (proj1 (In_sof _ _)) in G. apply in_app_iff in G. destruct G as [G|G].
      + apply HI. rewrite <- (r_I _ _ _ R). exact G.
      + apply in_map_iff in G. destruct G as (e & <- & Ie). destruct e as [u v [a k]]. apply (HT u a v). apply (r_T _ _ _ R). apply In_N_edges_ntrans; [apply (r_wf _ _ _ R)|]. exists k. exact Ie.
  Qed.

  Lemma same_fuel (g : nfa A) : length (universe g) <= length (nf_init g) + N_num_edges g.
  Proof. unfold universe, N_num_edges. rewrite <- (map_length target (N_edges g)). rewrite <- app_length. apply NoDup_incl_length; [apply NoDup_sof|]. intros x. apply In_sof. Qed.

  (** in words: two words lead to the same state when they reach the same states of the NFA *)
  Corollary C84_same_state n ini (eps : A) ops complete opop osym fuel d u v p q :
    let g := built n ini eps ops in
    let s := described n ini ops in
    valid_order opop -> valid_order osym -> 2 ^ (length (nf_init g) + N_num_edges g) + 1 <= fuel ->
    moore_determination g complete opop osym fuel = Some (d, Ok tt) -> ~ In eps u -> ~ In eps v ->
    A_delta_word d (Some 0) u = Some p -> A_delta_word d (Some 0) v = Some q ->
    (p = q <-> forall t, reaches s eps u t <-> reaches s eps v t).
  Proof.
    intros g s OP OS L E Nu Nv Hu Hv.
    destruct (C84_subset_construction n ini eps ops complete opop osym fuel (an_I s ++ map snd (an_T s)) OP OS L) as (d' & f & E' & _ & H1 & _ & _ & H2 & _).
    { intros x J. apply in_app_iff. left. exact J. }
    { intros x a r J. apply in_app_iff. right. apply (in_map snd) in J. exact J. }
    change (built n ini eps ops) with g in E'. rewrite E in E'. injection E' as <-. destruct (H1 u p Nu Hu) as [Vp Sp]. destruct (H1 v q Nv Hv) as [Vq Sq]. split.
    - intros <- t. split; intros J; [apply Sq, Sp, J|apply Sp, Sq, J].
    - intros X. apply H2; [exact Vp|exact Vq|]. intros t. rewrite Sp, Sq. apply X.
  Qed.

  (** ** With [complete = False]: no trash state, unless edges have been removed *)
  Definition removal (op : nfop A) : bool := match op with FRemoveEdge _ _ _ | FRemoveVertex _ | FClear => true | _ => false end.
  Definition no_husk (g : nfa A) : Prop := forall q arn a rn, dget (nf_adj g) q = Some arn -> dget arn a = Some rn -> rn <> [].

  Lemma no_husk_dset (g : nfa A) q arn : no_husk g -> (forall a rn, dget arn a = Some rn -> rn <> []) -> no_husk (nf_set_adj g (dset (nf_adj g) q arn)).
  Proof. intros F H q' arn' a rn. cbn [nf_adj nf_set_adj]. rewrite dget_dset. destruct (eqb q' q); [intros [= <-]; apply H|apply F]. Qed.
  Lemma no_husk_add_vertex (g : nfa A) : no_husk g -> no_husk (fst (N_add_vertex g)).
  Proof. intros F. unfold N_add_vertex. cbn. intros q arn a rn. cbn [nf_adj]. rewrite dget_dset. destruct (eqb q _); [intros [= <-]; discriminate|apply F]. Qed.
  Lemma no_husk_call (g : nfa A) op : removal op = false -> no_husk g -> no_husk (fst (N_call g op)).
  Proof.
    intros N F. destruct op as [|q r a|q r a|u|q b|qs|q b|]; try discriminate.
    - unfold N_call. pose proof (no_husk_add_vertex g F) as X. destruct (N_add_vertex g) as [g' [u|e]]; exact X.
    - cbn. apply no_husk_dset; [exact F|]. intros a' rn. rewrite dget_dset. destruct (eqb a' a).
      + intros [= <-] Z. pose proof (proj2 (In_dkeys_dset (match dget (match dget (nf_adj g) q with None => [] | Some arn => arn end) a with None => [] | Some rn => rn end) r
          (sadd (length (match dget (match dget (match dget (nf_adj g) q with None => [] | Some arn => arn end) a with None => [] | Some rn => rn end) r with None => [] | Some s => s end) + 1)
             (match dget (match dget (match dget (nf_adj g) q with None => [] | Some arn => arn end) a with None => [] | Some rn => rn end) r with None => [] | Some s => s end)) r) (or_introl eq_refl)) as Y.
        rewrite Z in Y. exact Y.
      + destruct (dget (nf_adj g) q) as [arn|] eqn:E; [apply (F _ _ _ _ E)|discriminate].
    - cbn. unfold N_set_initial. destruct b; exact F.
    - exact F.
    - exact F.
  Qed.
  Lemma no_husk_runs ops : Forall (fun op => removal op = false) ops -> forall g : nfa A, no_husk g -> no_husk (fst (runs N_call g ops)).
  Proof.
    induction 1 as [|op ops N _ IH]; intros g F; [exact F|]. cbn. pose proof (no_husk_call g op N F) as X. destruct (N_call g op) as [g1 o].
    specialize (IH g1 X). destruct (runs N_call g1 ops) as [g2 os]. exact IH.
  Qed.
  Lemma no_husk_init n ini (eps : A) : no_husk (N_init n ini eps).
  Proof.
    unfold N_init. match goal with |- no_husk (N_add_vertices n ?g) => assert (X : no_husk g) by (intros q arn a rn; cbn; discriminate); generalize dependent g end.
    induction n as [|n IH]; intros g X; [exact X|]. cbn [N_add_vertices]. apply IH, no_husk_add_vertex, X.
  Qed.

  Lemma sigma_step (g : nfa A) qs a : no_husk g -> in_sigma g false qs a -> exists q t, In q qs /\ wide g q a t.
  Proof.
    intros F (s & E & I). unfold moore_sigma in E.
    destruct (omap_spec (N_sigma g) (fun q s => forall a, In a s -> exists t, wide g q a t) qs) as (l & El & Fl).
    { intros q. unfold N_sigma. destruct (delta_epsilon_spec g [q]) as (s1 & -> & H1). cbn [obind]. eexists. split; [reflexivity|]. intros b J. rewrite In_sof, in_flat_map in J. destruct J as (p & Ip & J).
      apply H1 in Ip. destruct Ip as (q' & [<-|[]] & St). destruct (dget (nf_adj g) p) as [arn|] eqn:D; [|destruct J]. apply filter_In in J. destruct J as [J _].
      destruct (dget arn b) as [rn|] eqn:Db; [|exfalso; apply dget_None in Db; contradiction]. clear J. rename Db into J. destruct rn as [|[t k] rn']; [exfalso; apply (F _ _ _ _ D J eq_refl)|]. exists t, p, t. split; [exact St|]. split; [|constructor].
      unfold ntrans, N_get. rewrite D, J. left. reflexivity. }
    rewrite El in E. cbn in E. injection E as <-. rewrite In_sof in I. apply in_concat in I. destruct I as (x & Ix & Ia). clear El.
    induction Fl as [|q y qs l Hq Fl IH]; [destruct Ix|]. destruct Ix as [->|Ix].
    - destruct (Hq _ Ia) as [t W]. exists q, t. split; [left; reflexivity|exact W].
    - destruct (IH Ix) as (q' & t & J & W). exists q', t. split; [right; exact J|exact W].
  Qed.

  (** C84. Without the option, and when no edge and no vertex of the NFA has ever been removed, the
      automaton follows the words that some run spells and no other one. *)
  Theorem C84_no_trash_state n ini (eps : A) ops opop osym fuel :
    let g := built n ini eps ops in
    let s := described n ini ops in
    Forall (fun op => removal op = false) ops ->
    valid_order opop -> valid_order osym -> 2 ^ (length (nf_init g) + N_num_edges g) + 1 <= fuel ->
    exists d, moore_determination g false opop osym fuel = Some (d, Ok tt) /\
      forall w, ~ In eps w -> w <> [] -> (A_delta_word d (Some 0) w <> None <-> exists t, reaches s eps w t).
  Proof.
    intros g s NR OP OS L. pose proof (N_runs_rep n ini eps ops) as R. fold (built n ini eps ops) in R. fold (described n ini ops) in R. fold g s in R.
    pose proof (same_fuel g) as X. assert (Y : 2 ^ length (universe g) <= 2 ^ (length (nf_init g) + N_num_edges g)) by (apply Nat.pow_le_mono_r; lia).
    destruct (moore_run g false opop osym OP OS fuel) as (d & E & _ & _ & _ & m & q0s & I & _ & I0 & H0); [lia|].
    assert (EQ : nf_eps g = eps) by apply (r_eps _ _ _ R). exists d. split; [exact E|]. intros w NE NW.
    assert (F : no_husk g) by (apply no_husk_runs; [exact NR|apply no_husk_init]).
    assert (RE : forall w t, (exists p, In p q0s /\ nrun (ntrans g) (nf_eps g) p w t) <-> reaches s eps w t).
    { intros w' t. unfold reaches. rewrite <- (r_I _ _ _ R). rewrite EQ. split.
      - intros (p & Ip & Rp). apply H0 in Ip. destruct Ip as (q & Iq & St). exists q. split; [exact Iq|]. rewrite <- EQ in *.
        apply (nrun_ext (ntrans g)); [intros; apply (r_T _ _ _ R); assumption|]. eapply nrun_pre; eassumption.
      - intros (q & Iq & Rq). exists q. split; [apply H0; exists q; split; [exact Iq|constructor]|].
        apply (nrun_ext (steps s)); [intros; apply (r_T _ _ _ R); assumption|exact Rq]. }
    rewrite <- EQ in NE. destruct (read_subset g false d m w I q0s 0 I0 NE) as [H1 H2]. split.
    - intros W. destruct (A_delta_word d (Some 0) w) as [q|] eqn:Ew; [|congruence]. destruct (H1 q eq_refl) as (t & It & Ht).
      destruct (exists_last NW) as (w' & a & ->). rewrite delta_word_app in Ew. destruct (A_delta_word d (Some 0) w') as [p|] eqn:Ep; [|discriminate]. cbn in Ew.
      assert (Ed : A_delta d p a = Some q) by (destruct (A_delta d p a); congruence).
      destruct (m_sound _ _ _ _ _ _ _ I _ _ _ Ed) as (s' & t' & Is' & It' & HS & SG). rewrite (m_inj g false _ _ _ _ _ _ _ _ I It' It) in HS.
      destruct (sigma_step g s' a F SG) as (p' & x & Ip' & Wx). exists x. apply RE. apply Ht. apply HS. exists p'. auto.
    - intros (t & Q) W. apply RE in Q. destruct Q as (p & Ip & Rp). apply (H2 W p t Ip Rp).
  Qed.
End T.

(** After remove_edge the empty inner dictionary stays: sigma still lists the symbol, and the
    determinised automaton has a state for the empty set although [complete = False]. *)
Theorem C84_no_trash_state_refuted :
  exists ops : list (nfop nat), an_T (described 2 [0] ops) = [] /\
    exists d, moore_determination (built 2 [0] 9 ops) false (fun _ l => l) (fun _ l => l) 10 = Some (d, Ok tt) /\
      A_delta_word d (Some 0) [5] = Some 1 /\ forall t, ~ reaches (described 2 [0] ops) 9 [5] t.
Proof.
  exists [FAddEdge 0 1 5; FRemoveEdge 0 1 5]. split; [reflexivity|]. eexists. split; [vm_compute; reflexivity|]. split; [vm_compute; reflexivity|].
  intros t (q & _ & R). inversion R; subst; match goal with H : steps _ _ _ _ |- _ => vm_compute in H; exact H end.
Qed.

(** The NFA of the words on 5, 6 whose last letter but one is 5 (0 --9--> 1 is an epsilon transition). *)
Definition ex_moore : list (nfop nat) :=
  [FAddEdge 0 0 5; FAddEdge 0 0 6; FAddEdge 0 1 9; FAddEdge 1 2 5; FAddEdge 2 3 5; FAddEdge 2 3 6; FSetFinal 3 true].
Example ex_C84 :
  match moore_determination (built 4 [0] 9 ex_moore) false (fun _ l => l) (fun _ l => rev l) 300 with
  | Some (d, Ok _) => A_vertices d = [0; 1; 2; 3] /\ A_delta_word d (Some 0) [6; 5; 6] = A_delta_word d (Some 0) [5; 6] /\ map (A_is_final d) [0; 1; 2; 3] = [false; false; true; true]
  | _ => False
  end.
Proof. vm_compute. auto. Qed.
Example ex_C84_hyp : Forall (fun op => removal op = false) ex_moore /\ 2 ^ (length (nf_init (built 4 [0] 9 ex_moore)) + N_num_edges (built 4 [0] 9 ex_moore)) + 1 <= 300.
Proof. split; [repeat constructor|vm_compute; repeat constructor]. Qed.

Print Assumptions C84_subset_construction.
Print Assumptions C84_same_state.
Print Assumptions C84_no_trash_state.
Print Assumptions C84_no_trash_state_refuted.
