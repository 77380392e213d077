(** C138: insert_automaton called with a dictionary, and the constructions called with the same automaton twice
    (thompson_compile_nfa.py:64-176). *)
From Verif Require Import Base BaseProofs Graph Automaton Nfa NfaSpec NfaProofs Thompson ThompsonSpec ThompsonProofs InsertMap.
#[local] Arguments dkeys : simpl never.

(** ** Specification *)
(** the states are below the next number to be given, and the dictionaries have unique keys *)
Definition numbering {A} `{EqDec A} (g : nfa A) : Prop := nwf (nf_adj g) /\ forall v, In v (N_vertices g) -> v < nf_last g.
(** the states of [g2] among the keys of [d] are sent on states of [g1] *)
Definition on_states {A} `{EqDec A} (g1 g2 : nfa A) (d : dict nat nat) : Prop :=
  forall q v, In q (N_vertices g2) -> dget d q = Some v -> In v (N_vertices g1).
(** the transitions of [g2] lead to its states or to keys of [d] *)
Definition leads {A} `{EqDec A} (g2 : nfa A) (d : dict nat nat) : Prop :=
  forall q a r, ntrans g2 q a r -> In r (N_vertices g2) \/ dget d r <> None.
(** [m] is what a caller gets for the given dictionary [d] *)
Definition completes {A} `{EqDec A} (g1 g2 : nfa A) (d m : dict nat nat) : Prop :=
  (forall q, ~ In q (N_vertices g2) \/ dget d q <> None -> dget m q = dget d q) /\
  (forall q, In q (N_vertices g2) -> dget d q = None -> exists v, dget m q = Some v /\ nf_last g1 <= v) /\
  (forall q q' v, In q (N_vertices g2) -> In q' (N_vertices g2) -> dget d q = None -> dget d q' = None ->
    dget m q = Some v -> dget m q' = Some v -> q = q').

Section C138.
  Context {A : Type} {EA : EqDec A}.

  Lemma insert_vertices_skip (g2 : nfa A) qs : forall (g1 : nfa A) m, NoDup qs ->
    insert_vertices g2 qs g1 m = insert_vertices g2 (filter (fun q => negb (dmem m q)) qs) g1 m.
  Proof.
    induction qs as [|q qs IH]; intros g1 m ND; [reflexivity|]. inversion ND as [|? ? N1 N2]; subst. cbn [insert_vertices filter].
    destruct (dmem m q) eqn:E; cbn [negb]; [apply IH, N2|]. cbn [insert_vertices]. rewrite E. destruct (add_vertex g1) as [ga v].
    rewrite IH by exact N2. f_equal. apply filter_ext_in. intros r I. f_equal. unfold dmem. rewrite dget_dset_other; [reflexivity|].
    intros ->. contradiction.
  Qed.
  Lemma insert_vertices_keep (g2 : nfa A) qs : forall (g1 : nfa A) m v, nf_final g1 v = true -> nf_final (fst (insert_vertices g2 qs g1 m)) v = true.
  Proof.
    induction qs as [|q qs IH]; intros g1 m v F; cbn [insert_vertices]; [exact F|]. destruct (dmem m q); [apply IH, F|].
    unfold add_vertex. cbv beta iota. apply IH. destruct (N_is_final g2 q); cbn; [|exact F]. destruct (v =? nf_last g1); [reflexivity|exact F].
  Qed.
  Lemma insert_edges_lost (m : dict nat nat) es : forall (g1 : nfa A),
    (exists e : edge (A * list nat), In e es /\ (dget m (source e) = None \/ dget m (target e) = None)) -> insert_edges es g1 m = Raise KeyError.
  Proof.
    induction es as [|e es IH]; intros g1 (x & I & X); [destruct I|]. cbn [insert_edges].
    destruct (dget m (source e)) as [q1|] eqn:E1; [|reflexivity]. destruct (dget m (target e)) as [r1|] eqn:E2; [|reflexivity].
    apply IH. destruct I as [<-|I]; [rewrite E1, E2 in X; destruct X; discriminate|]. exists x. auto.
  Qed.

  (** The automaton obtained by gluing [g2] on [g1] along the dictionary. *)
  Theorem C138_insert_automaton (g1 g2 : nfa A) arg d : numbering g1 -> nwf (nf_adj g2) ->
    d = match arg with Some d => d | None => [] end -> on_states g1 g2 d -> leads g2 d ->
    exists g m, insert_automaton_map g1 g2 arg = Ok (g, m, if d then arg else Some m) /\ completes g1 g2 d m /\
      numbering g /\ nf_init g = nf_init g1 /\ nf_eps g = nf_eps g1 /\
      (forall v, In v (N_vertices g) <-> In v (N_vertices g1) \/ exists q, In q (N_vertices g2) /\ dget m q = Some v) /\
      (forall q a r, ntrans g q a r <-> ntrans g1 q a r \/
        exists q2 r2, ntrans g2 q2 a r2 /\ dget m q2 = Some q /\ dget m r2 = Some r) /\
      (forall v, nf_final g v = true <-> nf_final g1 v = true \/
        exists q, In q (N_vertices g2) /\ dget d q = None /\ dget m q = Some v /\ nf_final g2 q = true).
  Proof.
    intros [W1 V1] W2 Ed ON LE. unfold insert_automaton_map. rewrite <- Ed.
    pose proof (insert_vertices_keep g2 (N_vertices g2) g1 d) as KP.
    rewrite insert_vertices_skip in * by exact (proj1 W2). set (qs := filter (fun q => negb (dmem d q)) (N_vertices g2)) in *.
    assert (Iq : forall q, In q qs <-> In q (N_vertices g2) /\ dget d q = None).
    { intros q. unfold qs. rewrite filter_In. unfold dmem. destruct (dget d q); cbn; intuition discriminate. }
    pose proof (insert_vertices_ok g2 qs g1 d W1 V1 (NoDup_filter _ (proj1 W2))) as HV.
    assert (DJ : forall q, In q qs -> ~ In q (dkeys d)) by (intros q I X; apply Iq in I; apply dget_None in X; [exact X|tauto]).
    specialize (HV DJ). destruct (insert_vertices g2 qs g1 d) as [ga m]. cbn [fst] in KP.
    destruct HV as (Wa & Va & Le & Ia & Ea & Ta & M1 & M2 & M3 & Vs & F' & F2 & F3).
    assert (Mold : forall q v, dget d q = Some v -> dget m q = Some v).
    { intros q v E. rewrite M1; [exact E|]. rewrite Iq. intros [_ X]. congruence. }
    assert (Min : forall q, In q (N_vertices g2) -> exists v, dget m q = Some v /\ In v (N_vertices ga)).
    { intros q I. destruct (dget d q) as [v|] eqn:E.
      - exists v. split; [apply Mold, E|]. apply Vs. left. eapply ON; eassumption.
      - destruct (M2 q) as (v & E' & _); [apply Iq; auto|]. exists v. split; [exact E'|]. apply Vs. right. exists q. split; [apply Iq; auto|exact E']. }
    destruct (insert_edges_ok m (N_edges g2) ga Wa) as (g' & E & W' & S' & V' & T').
    { intros [q r [a n]] I. assert (X : ntrans g2 q a r) by (apply In_N_edges_ntrans; [exact W2|exists n; exact I]).
      cbn [source target]. destruct (Min q (ntrans_source _ _ _ _ X)) as (v & Ev & Iv). destruct (LE _ _ _ X) as [Ir|Dr].
      - destruct (Min r Ir) as (w & Ew & _). exists v, w. auto.
      - destruct (dget d r) as [w|] eqn:Ew; [|congruence]. exists v, w. split; [exact Ev|]. split; [apply Mold, Ew|exact Iv]. }
    rewrite E. cbn [rbind]. destruct S' as (Sl & Si & Sf & Se). exists g', m.
    split; [rewrite Ed; destruct arg as [[|]|]; reflexivity|].
    split; [|split; [|split; [congruence|split; [congruence|split; [|split]]]]].
    - split; [|split].
      + intros q X. apply M1. rewrite Iq. tauto.
      + intros q I N. destruct (M2 q) as (v & Ev & B); [apply Iq; auto|]. exists v. split; [exact Ev|lia].
      + intros q q' v I I' N N'. apply M3; apply Iq; auto.
    - split; [exact W'|]. intros v. rewrite V', Sl. apply Va.
    - intros v. rewrite V', Vs. split; (intros [X|(q & I & X)]; [left; exact X|]).
      + right. exists q. apply Iq in I. tauto.
      + destruct (dget d q) as [w|] eqn:Ew; [|right; exists q; rewrite Iq; auto]. left. rewrite (Mold _ _ Ew) in X. injection X as <-. eapply ON; eassumption.
    - intros q a r. rewrite T', Ta. apply or_iff_compat_l. split.
      + intros ([q2 r2 [a2 n]] & I & X1 & X2 & X3). cbn in X1, X2, X3. subst a2. exists q2, r2. split; [|auto]. apply In_N_edges_ntrans; [exact W2|exists n; exact I].
      + intros (q2 & r2 & X & X1 & X2). apply (In_N_edges_ntrans g2 q2 r2 a W2) in X. destruct X as (n & I). eexists. split; [exact I|]. cbn. auto.
    - intros v. rewrite Sf. split.
      + intros X. apply F2 in X. destruct X as [X|(q & I & X1 & X2)]; [tauto|]. right. exists q. apply Iq in I. tauto.
      + intros [X|(q & I & N & X1 & X2)]; [apply KP, X|]. eapply F3; [apply Iq; split; eassumption|exact X1|exact X2].
  Qed.

  (** A transition to something which is neither a state of [g2] nor a key raises KeyError. *)
  Theorem C138_key_error (g1 g2 : nfa A) arg d : numbering g1 -> nwf (nf_adj g2) ->
    d = match arg with Some d => d | None => [] end -> ~ leads g2 d -> insert_automaton_map g1 g2 arg = Raise KeyError.
  Proof.
    intros [W1 V1] W2 Ed LE. unfold insert_automaton_map. rewrite <- Ed.
    rewrite insert_vertices_skip by exact (proj1 W2). set (qs := filter (fun q => negb (dmem d q)) (N_vertices g2)).
    assert (Iq : forall q, In q qs <-> In q (N_vertices g2) /\ dget d q = None).
    { intros q. unfold qs. rewrite filter_In. unfold dmem. destruct (dget d q); cbn; intuition discriminate. }
    pose proof (insert_vertices_ok g2 qs g1 d W1 V1 (NoDup_filter _ (proj1 W2))) as HV.
    assert (DJ : forall q, In q qs -> ~ In q (dkeys d)) by (intros q I X; apply Iq in I; apply dget_None in X; [exact X|tauto]).
    specialize (HV DJ). destruct (insert_vertices g2 qs g1 d) as [ga m]. destruct HV as (_ & _ & _ & _ & _ & _ & M1 & _).
    rewrite insert_edges_lost; [reflexivity|].
    assert (X : ~ forall e, In e (N_edges g2) -> In (target e) (N_vertices g2) \/ dget d (target e) <> None).
    { intros X. apply LE. intros q a r T. apply (In_N_edges_ntrans g2 q r a W2) in T. destruct T as (n & I). apply (X _ I). }
    assert (DEC : forall e : edge (A * list nat), {In (target e) (N_vertices g2) \/ dget d (target e) <> None} + {~ (In (target e) (N_vertices g2) \/ dget d (target e) <> None)}).
    { intros e. destruct (in_dec Nat.eq_dec (target e) (N_vertices g2)); [left; auto|]. destruct (dget d (target e)); [left; right; discriminate|right; tauto]. }
    destruct (Forall_Exists_dec _ DEC (N_edges g2)) as [Y|Y]; [rewrite Forall_forall in Y; tauto|].
    apply Exists_exists in Y. destruct Y as (e & I & Y). exists e. split; [exact I|]. right. rewrite M1; [|rewrite Iq; tauto]. destruct (dget d (target e)); [exfalso; apply Y; right; discriminate|reflexivity].
  Qed.

  (** The words read along the copy are those of [g2]. *)
  Theorem C138_runs (g1 g2 : nfa A) arg g m arg' eps : nwf (nf_adj g2) -> numbering g1 ->
    let d := match arg with Some d => d | None => [] end in
    on_states g1 g2 d -> leads g2 d -> insert_automaton_map g1 g2 arg = Ok (g, m, arg') ->
    forall q w r v v', nrun (ntrans g2) eps q w r -> dget m q = Some v -> dget m r = Some v' -> nrun (ntrans g) eps v w v'.
  Proof.
    intros W2 N1 d ON LE E q w r v v' R Eq Er.
    destruct (C138_insert_automaton g1 g2 arg d N1 W2 eq_refl ON LE) as (g' & m' & E' & CO & _ & _ & _ & _ & T & _).
    rewrite E in E'. injection E' as <- <- _.
    assert (Mr : forall q a r, ntrans g2 q a r -> exists v, dget m r = Some v).
    { intros q' a r' X. destruct CO as (C1 & C2 & _). destruct (dget d r') as [x|] eqn:Ex; [exists x; rewrite C1, Ex; [reflexivity|right; congruence]|].
      destruct (LE _ _ _ X) as [I|Y]; [|congruence]. destruct (C2 _ I Ex) as (x & Ey & _). exists x. exact Ey. }
    revert v Eq. induction R as [q|q p r w X R IH|q a p r w NE X R IH]; intros v Eq.
    - rewrite Eq in Er. injection Er as <-. constructor.
    - destruct (Mr _ _ _ X) as (x & Ex). eapply nrun_eps; [|exact (IH Er x Ex)]. apply T. right. exists q, p. auto.
    - destruct (Mr _ _ _ X) as (x & Ex). eapply nrun_cons; [exact NE| |exact (IH Er x Ex)]. apply T. right. exists q, p. auto.
  Qed.

  (** Gluing the initial state of a fragment on the final state of another one concatenates them, when no transition
      leaves the latter or no transition enters the former. *)
  Theorem C138_glued_concatenation (g1 g2 : nfa A) q01 f1 q02 f2 eps : good eps (g1, q01, f1) -> good eps (g2, q02, f2) ->
    (forall a r, ~ ntrans g1 f1 a r) \/ (forall q a, ~ ntrans g2 q a q02) ->
    exists g m f, insert_automaton_map g1 g2 (Some [(q02, f1)]) = Ok (g, m, Some m) /\ dget m f2 = Some f /\
      forall w, nrun (ntrans g) eps q01 w f <->
        exists u v, w = u ++ v /\ nrun (ntrans g1) eps q01 u f1 /\ nrun (ntrans g2) eps q02 v f2.
  Proof.
    intros [P1 _] [P2 _] CL. set (d := [(q02, f1)]).
    assert (Dq : forall q, dget d q = if q =? q02 then Some f1 else None).
    { intros q. unfold d. cbn [dget]. destruct (eqb_spec q q02) as [->|N]; [rewrite Nat.eqb_refl; reflexivity|]. destruct (Nat.eqb_spec q q02); [contradiction|reflexivity]. }
    assert (ON : on_states g1 g2 d).
    { intros q v _. rewrite Dq. destruct (q =? q02); [|discriminate]. intros X. injection X as <-. apply (p_f _ _ _ _ P1). }
    assert (LE : leads g2 d) by (intros q a r X; left; apply (p_T _ _ _ _ P2 _ _ _ X)).
    assert (N1 : numbering g1) by (split; [apply (p_wf _ _ _ _ P1)|apply (p_V _ _ _ _ P1)]).
    pose proof (p_wf _ _ _ _ P2) as W2.
    destruct (C138_insert_automaton g1 g2 (Some d) d N1 W2 eq_refl ON LE) as (g & m & E & (C1 & C2 & C3) & _ & _ & _ & _ & T & _).
    assert (M0 : dget m q02 = Some f1) by (rewrite C1, Dq, Nat.eqb_refl; [reflexivity|right; rewrite Dq, Nat.eqb_refl; discriminate]).
    assert (Mn : forall q, In q (N_vertices g2) -> q <> q02 -> exists v, dget m q = Some v /\ nf_last g1 <= v).
    { intros q I N. apply C2; [exact I|]. rewrite Dq. destruct (Nat.eqb_spec q q02); [contradiction|reflexivity]. }
    assert (Mi : forall q q' v, In q (N_vertices g2) -> In q' (N_vertices g2) -> dget m q = Some v -> dget m q' = Some v -> q = q').
    { intros q q' v I I' X X'. destruct (Nat.eq_dec q q02) as [->|N]; destruct (Nat.eq_dec q' q02) as [->|N']; [reflexivity| | |].
      - destruct (Mn q' I' N') as (y & Y & B). pose proof (p_V _ _ _ _ P1 _ (p_f _ _ _ _ P1)). assert (y = f1) by congruence. lia.
      - destruct (Mn q I N) as (y & Y & B). pose proof (p_V _ _ _ _ P1 _ (p_f _ _ _ _ P1)). assert (y = f1) by congruence. lia.
      - eapply C3; try eassumption; rewrite Dq; [destruct (Nat.eqb_spec q q02)|destruct (Nat.eqb_spec q' q02)]; congruence. }
    assert (Mv : forall q v, In q (N_vertices g2) -> dget m q = Some v -> In v (N_vertices g1) -> q = q02 /\ v = f1).
    { intros q v I X J. destruct (Nat.eq_dec q q02) as [->|N]; [split; congruence|]. destruct (Mn q I N) as (y & Y & B). apply (p_V _ _ _ _ P1) in J. assert (y = v) by congruence. lia. }
    assert (exists f, dget m f2 = Some f) as (f & Ef).
    { destruct (Nat.eq_dec f2 q02) as [->|N]; [eauto|]. destruct (Mn f2 (p_f _ _ _ _ P2) N) as (y & Y & _). eauto. }
    exists g, m, f. split; [exact E|]. split; [exact Ef|]. intros w. split.
    - intros R. destruct CL as [CL|CL].
      + assert (G : forall q w, nrun (ntrans g) eps q w f -> (In q (N_vertices g1) -> q <> f1 -> exists u v, w = u ++ v /\ nrun (ntrans g1) eps q u f1 /\ nrun (ntrans g2) eps q02 v f2) /\
          (forall q2, In q2 (N_vertices g2) -> dget m q2 = Some q -> nrun (ntrans g2) eps q2 w f2)).
        { apply nrun_goal.
          - split.
            + intros I N. destruct (Mv _ _ (p_f _ _ _ _ P2) Ef I). contradiction.
            + intros q2 I X. rewrite (Mi q2 f2 f I (p_f _ _ _ _ P2) X Ef). constructor.
          - intros q r v X [G1 G2]. apply T in X. destruct X as [X|(q2 & r2 & X & Xq & Xr)].
            + assert (NF : q <> f1) by (intros ->; exact (CL _ _ X)). destruct (p_T _ _ _ _ P1 _ _ _ X) as [Iq Ir]. split.
              * intros _ _. destruct (Nat.eq_dec r f1) as [->|Nr].
                -- exists [], v. split; [reflexivity|]. split; [eapply nrun_eps; [exact X|constructor]|]. apply G2; [apply (p_q0 _ _ _ _ P2)|exact M0].
                -- destruct (G1 Ir Nr) as (u & v' & -> & R1 & R2). exists u, v'. split; [reflexivity|]. split; [eapply nrun_eps; eassumption|exact R2].
              * intros q2 I Y. destruct (Mv _ _ I Y Iq). contradiction.
            + destruct (p_T _ _ _ _ P2 _ _ _ X) as [Iq Ir]. split.
              * intros I N. destruct (Mv _ _ Iq Xq I). contradiction.
              * intros q3 I Y. rewrite (Mi q3 q2 q I Iq Y Xq). eapply nrun_eps; [exact X|]. apply G2; [exact Ir|exact Xr].
          - intros q a r v NE X [G1 G2]. apply T in X. destruct X as [X|(q2 & r2 & X & Xq & Xr)].
            + assert (NF : q <> f1) by (intros ->; exact (CL _ _ X)). destruct (p_T _ _ _ _ P1 _ _ _ X) as [Iq Ir]. split.
              * intros _ _. destruct (Nat.eq_dec r f1) as [->|Nr].
                -- exists [a], v. split; [reflexivity|]. split; [eapply nrun_cons; [exact NE|exact X|constructor]|]. apply G2; [apply (p_q0 _ _ _ _ P2)|exact M0].
                -- destruct (G1 Ir Nr) as (u & v' & -> & R1 & R2). exists (a :: u), v'. split; [reflexivity|]. split; [eapply nrun_cons; eassumption|exact R2].
              * intros q2 I Y. destruct (Mv _ _ I Y Iq). contradiction.
            + destruct (p_T _ _ _ _ P2 _ _ _ X) as [Iq Ir]. split.
              * intros I N. destruct (Mv _ _ Iq Xq I). contradiction.
              * intros q3 I Y. rewrite (Mi q3 q2 q I Iq Y Xq). eapply nrun_cons; [exact NE|exact X|]. apply G2; [exact Ir|exact Xr]. }
        destruct (G _ _ R) as [G1 G2]. destruct (Nat.eq_dec q01 f1) as [->|N]; [|apply G1; [apply (p_q0 _ _ _ _ P1)|exact N]].
        exists [], w. split; [reflexivity|]. split; [constructor|]. apply G2; [apply (p_q0 _ _ _ _ P2)|exact M0].
      + assert (G : forall q w, nrun (ntrans g) eps q w f -> (In q (N_vertices g1) -> exists u v, w = u ++ v /\ nrun (ntrans g1) eps q u f1 /\ nrun (ntrans g2) eps q02 v f2) /\
          (forall q2, In q2 (N_vertices g2) -> q2 <> q02 -> dget m q2 = Some q -> nrun (ntrans g2) eps q2 w f2)).
        { apply nrun_goal.
          - split.
            + intros I. destruct (Mv _ _ (p_f _ _ _ _ P2) Ef I) as [-> ->]. exists [], []. split; [reflexivity|]. split; constructor.
            + intros q2 I _ X. rewrite (Mi q2 f2 f I (p_f _ _ _ _ P2) X Ef). constructor.
          - intros q r v X [G1 G2]. apply T in X. destruct X as [X|(q2 & r2 & X & Xq & Xr)].
            + destruct (p_T _ _ _ _ P1 _ _ _ X) as [Iq Ir]. split.
              * intros _. destruct (G1 Ir) as (u & v' & -> & R1 & R2). exists u, v'. split; [reflexivity|]. split; [eapply nrun_eps; eassumption|exact R2].
              * intros q2 I N Y. destruct (Mv _ _ I Y Iq). contradiction.
            + destruct (p_T _ _ _ _ P2 _ _ _ X) as [Iq Ir]. assert (N2 : r2 <> q02) by (intros ->; exact (CL _ _ X)).
              assert (R2 : nrun (ntrans g2) eps q2 v f2) by (eapply nrun_eps; [exact X|apply G2; assumption]). split.
              * intros I. destruct (Mv _ _ Iq Xq I) as [-> ->]. exists [], v. split; [reflexivity|]. split; [constructor|exact R2].
              * intros q3 I N Y. rewrite (Mi q3 q2 q I Iq Y Xq). exact R2.
          - intros q a r v NE X [G1 G2]. apply T in X. destruct X as [X|(q2 & r2 & X & Xq & Xr)].
            + destruct (p_T _ _ _ _ P1 _ _ _ X) as [Iq Ir]. split.
              * intros _. destruct (G1 Ir) as (u & v' & -> & R1 & R2). exists (a :: u), v'. split; [reflexivity|]. split; [eapply nrun_cons; eassumption|exact R2].
              * intros q2 I N Y. destruct (Mv _ _ I Y Iq). contradiction.
            + destruct (p_T _ _ _ _ P2 _ _ _ X) as [Iq Ir]. assert (N2 : r2 <> q02) by (intros ->; exact (CL _ _ X)).
              assert (R2 : nrun (ntrans g2) eps q2 (a :: v) f2) by (eapply nrun_cons; [exact NE|exact X|apply G2; assumption]). split.
              * intros I. destruct (Mv _ _ Iq Xq I) as [-> ->]. exists [], (a :: v). split; [reflexivity|]. split; [constructor|exact R2].
              * intros q3 I N Y. rewrite (Mi q3 q2 q I Iq Y Xq). exact R2. }
        apply (G _ _ R), (p_q0 _ _ _ _ P1).
    - intros (u & v & -> & R1 & R2). apply nrun_app with f1.
      + apply (nrun_map eps (ntrans g1) (ntrans g) (fun q => q)); [|exact R1]. intros q a r X. apply T. left. exact X.
      + eapply (C138_runs g1 g2 (Some d) g m _ eps W2 N1 ON LE E); [exact R2|exact M0|exact Ef].
  Qed.

  (** The same automaton twice: Python notices that the dictionary grows while it is iterated. The automaton keeps one
      more state, which is isolated. *)
  Definition spoiled (g g' : nfa A) : Prop :=
    N_vertices g' = N_vertices g ++ [nf_last g] /\ nf_last g' = S (nf_last g) /\ nf_init g' = nf_init g /\ nf_eps g' = nf_eps g /\
    (forall q a r, ntrans g' q a r <-> ntrans g q a r) /\
    forall v, v <> nf_last g -> nf_final g' v = nf_final g v.
  Theorem C138_same_object (g : nfa A) q01 f1 q02 f2 : numbering g -> N_vertices g <> [] ->
    exists g', spoiled g g' /\ insert_automaton_same g = (g', Raise RuntimeError) /\
      concatenation_same g q01 f1 q02 f2 = (g', Raise RuntimeError) /\ alternation_same g q01 f1 q02 f2 = (g', Raise RuntimeError).
  Proof.
    intros [W HV] NE. destruct (N_vertices g) as [|q qs] eqn:EV; [congruence|].
    assert (S1 : exists g' r, insert_automaton_same g = (g', r) /\ r = Raise RuntimeError /\ spoiled g g').
    { unfold insert_automaton_same. rewrite EV. cbn [insert_vertices_same]. rewrite ?EV, Nat.eqb_refl. cbn [dmem dget].
      rewrite <- EV in HV. destruct (add_vertex_ok g W HV) as (W1 & L1 & V1 & I1 & F1 & E1 & T1). unfold add_vertex in *. cbn [fst] in *. cbv beta iota.
      set (ga := fst (N_add_vertex g)) in *. set (gb := if N_is_final ga q then _ else _).
      assert (Vb : N_vertices gb = N_vertices g ++ [nf_last g]) by (unfold gb; destruct (N_is_final ga q); exact V1).
      assert (SP : spoiled g gb).
      { split; [exact Vb|]. unfold gb. destruct (N_is_final ga q); (split; [exact L1|]; split; [exact I1|]; split; [exact E1|]; split; [exact T1|]); intros v N; cbn; [|reflexivity].
        destruct (Nat.eqb_spec v (nf_last g)); [contradiction|reflexivity]. }
      assert (RR : forall d, insert_vertices_same (length (q :: qs)) qs gb d = (gb, Raise RuntimeError)).
      { intros d. assert (X : length (N_vertices gb) =? length (q :: qs) = false) by (apply Nat.eqb_neq; rewrite Vb, EV, app_length; cbn; lia).
        destruct qs; cbn [insert_vertices_same]; rewrite X; reflexivity. }
      rewrite RR. exists gb, (Raise RuntimeError). auto. }
    destruct S1 as (g' & r & E & -> & SP). exists g'. split; [exact SP|]. split; [exact E|]. unfold concatenation_same, alternation_same. rewrite E. auto.
  Qed.
  (** The same automaton twice, without states: there is nothing to iterate on and insert_automaton changes nothing. concatenation fails
      on the missing state q02 and changes nothing; alternation fails too, after it has added a state and a transition from it to q01. *)
  Theorem C138_same_empty (g : nfa A) q01 f1 q02 f2 : N_vertices g = [] ->
    insert_automaton_same g = (g, Ok []) /\ concatenation_same g q01 f1 q02 f2 = (g, Raise KeyError) /\
    exists g', alternation_same g q01 f1 q02 f2 = (g', Raise KeyError) /\ N_vertices g' = [nf_last g] /\ nf_last g' = S (nf_last g) /\ nf_init g' = nf_init g /\ nf_eps g' = nf_eps g /\
      (forall q a r, ntrans g' q a r <-> q = nf_last g /\ a = nf_eps g /\ r = q01) /\ forall v, nf_final g' v = nf_final g v.
  Proof.
    intros EV. assert (EAD : nf_adj g = []) by (unfold N_vertices, dkeys in EV; destruct (nf_adj g); [reflexivity|discriminate]).
    assert (S0 : insert_automaton_same g = (g, Ok [])) by (unfold insert_automaton_same; rewrite EV; cbn [length insert_vertices_same]; rewrite EV; cbn [length Nat.eqb]; unfold N_edges; rewrite EAD; reflexivity).
    split; [exact S0|]. unfold concatenation_same, alternation_same. rewrite S0. cbn [lookup dget]. split; [reflexivity|].
    assert (W : nwf (nf_adj g)) by (rewrite EAD; split; [constructor|discriminate]). assert (HV : forall v, In v (N_vertices g) -> v < nf_last g) by (rewrite EV; intros v []).
    destruct (add_vertex_ok g W HV) as (W1 & L1 & V1 & I1 & F1 & E1 & T1). unfold add_vertex in *. cbn [fst] in *. cbv beta iota.
    rewrite EV in V1. destruct (add_edge_ok (fst (N_add_vertex g)) (nf_last g) q01 (nf_eps g) W1) as (_ & SB & V2 & T2); [rewrite V1; left; reflexivity|].
    assert (NT : forall q a r, ~ ntrans g q a r) by (intros q a r X; unfold ntrans, N_get in X; rewrite EAD in X; exact X).
    destruct SB as (B1 & B2 & B3 & B4). eexists. split; [reflexivity|]. split; [rewrite V2; exact V1|]. split; [rewrite B1; exact L1|]. split; [rewrite B2; exact I1|]. split; [rewrite B4; exact E1|]. split; [|intros v; rewrite B3, F1; reflexivity].
    intros q a r. rewrite T2, T1. split; [intros [X|X]; [destruct (NT _ _ _ X)|exact X]|right; assumption].
  Qed.
End C138.

(** ** Examples: the fragments of a and b; gluing the initial state of b on the final state of a gives ab *)
Definition a138 : nfa nat * nat * nat := literal 0 1.
Definition b138 : nfa nat * nat * nat := literal 0 2.
Example C138_example :
  match insert_automaton_map (fst (fst a138)) (fst (fst b138)) (Some [(0, 1)]) with
  | Ok (g, m, arg) => m = [(0, 1); (1, 2)] /\ arg = Some m /\ N_vertices g = [0; 1; 2] /\
      map (N_accepts g) [[1; 2]; [1]; [2]; []; [1; 2; 2]] = [Some true; Some true; Some false; Some false; Some false]
  | Raise _ => False
  end /\
  match insert_automaton_map (fst (fst a138)) (fst (fst b138)) (Some []) with
  | Ok (g, m, arg) => m = [(0, 2); (1, 3)] /\ arg = Some [] | Raise _ => False end.
Proof. vm_compute. repeat split. Qed.
Example C138_hypotheses : numbering (fst (fst a138)) /\ on_states (fst (fst a138)) (fst (fst b138)) [(0, 1)] /\ leads (fst (fst b138)) [(0, 1)] /\
  (forall a r, ~ ntrans (fst (fst a138)) 1 a r) /\
  ~ leads (fst (N_add_edge (fst (fst b138)) 0 7 3)) [(0, 1)].
Proof.
  destruct (literal_ok 0 1 ltac:(discriminate)) as [G1 _]. destruct (literal_ok 0 2 ltac:(discriminate)) as [G2 _]. fold a138 in G1. fold b138 in G2.
  split; [exact (conj (p_wf _ _ _ _ (proj1 G1)) (p_V _ _ _ _ (proj1 G1)))|]. split; [|split; [|split]].
  - intros q v _ X. cbn in X. destruct q; [|discriminate]. injection X as <-. vm_compute. tauto.
  - intros q a r X. left. apply (p_T _ _ _ _ (proj1 G2) _ _ _ X).
  - intros a r X. exact X.
  - intros X. destruct (X 0 3 7) as [I|I]; [vm_compute; tauto|vm_compute in I; intuition discriminate|apply I; reflexivity].
Qed.
Example C138_same : insert_automaton_same (fst (fst a138)) = (fst (N_add_vertex (fst (fst a138))), Raise RuntimeError).
Proof. reflexivity. Qed.
Example C138_same_empty_example : fst (alternation_same (N_init 0 [] 9 : nfa nat) 5 6 7 8) = fst (N_add_edge (fst (N_add_vertex (N_init 0 [] 9))) 0 5 9).
Proof. reflexivity. Qed.

Print Assumptions C138_insert_automaton.
Print Assumptions C138_key_error.
Print Assumptions C138_runs.
Print Assumptions C138_glued_concatenation.
Print Assumptions C138_same_object.
Print Assumptions C138_same_empty.
