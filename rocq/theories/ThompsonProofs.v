(** Lemmas on the Thompson constructions. *)
From Verif Require Import Base BaseProofs Graph Automaton Nfa NfaSpec NfaProofs Thompson ThompsonSpec.
#[local] Arguments dkeys : simpl never.

Section Runs.
  Context {A : Type}.
  Variable eps : A.
  Notation rel := (nat -> A -> nat -> Prop).

  (** soundness of a goal predicate: closed backwards by the transitions *)
  Lemma nrun_goal (T : rel) (G : nat -> list A -> Prop) t :
    G t [] -> (forall q r w, T q eps r -> G r w -> G q w) ->
    (forall q a r w, a <> eps -> T q a r -> G r w -> G q (a :: w)) ->
    forall q w, nrun T eps q w t -> G q w.
  Proof. intros H1 H2 H3 q w R. induction R; eauto. Qed.

  Lemma nrun_app (T : rel) q u r v t : nrun T eps q u r -> nrun T eps r v t -> nrun T eps q (u ++ v) t.
  Proof. intros R. revert v t. induction R; cbn; intros; [assumption| |]; [eapply nrun_eps|eapply nrun_cons]; eauto. Qed.

  Lemma nrun_map (T T' : rel) (m : nat -> nat) q w t :
    (forall q a r, T q a r -> T' (m q) a (m r)) -> nrun T eps q w t -> nrun T' eps (m q) w (m t).
  Proof. intros HM R. induction R; [constructor|eapply nrun_eps|eapply nrun_cons]; eauto. Qed.

  Lemma nrun_noeps (T : rel) q w t : nrun T eps q w t -> ~ In eps w.
  Proof. induction 1; cbn; [tauto|assumption|]. intros [->|I]; tauto. Qed.

  Lemma nrun_one (T : rel) q r : T q eps r -> nrun T eps q [] r.
  Proof. intros X. eapply nrun_eps; [exact X|constructor]. Qed.
End Runs.

Section Langs.
  Context {A : Type}.
  Lemma lcat_app (L1 L2 : lang A) u v : L1 u -> L2 v -> lcat L1 L2 (u ++ v).
  Proof. intros X Y. exists u, v. auto. Qed.
  Lemma lpow_1 (L : lang A) w : lpow L 1 w <-> L w.
  Proof.
    cbn. split.
    - intros (u & v & -> & X & ->). rewrite app_nil_r. exact X.
    - intros X. exists w, []. rewrite app_nil_r. repeat split. exact X.
  Qed.
  Lemma lpow_app (L : lang A) n m u v : lpow L n u -> lpow L m v -> lpow L (n + m) (u ++ v).
  Proof.
    revert u. induction n as [|n IH]; cbn; intros u X Y; [rewrite X; exact Y|].
    destruct X as (u1 & u2 & -> & X1 & X2). rewrite <- app_assoc. apply lcat_app; auto.
  Qed.
  Lemma lpow_split (L : lang A) n m w : lpow L (n + m) w -> exists u v, w = u ++ v /\ lpow L n u /\ lpow L m v.
  Proof.
    revert w. induction n as [|n IH]; cbn; intros w X; [exists [], w; repeat split; exact X|].
    destruct X as (u1 & u2 & -> & X1 & X2). destruct (IH _ X2) as (u & v & -> & X3 & X4).
    exists (u1 ++ u), v. rewrite app_assoc. repeat split; [apply lcat_app; assumption|exact X4].
  Qed.
  Lemma lpow_ext (L L' : lang A) n w : (forall w, L w -> L' w) -> lpow L n w -> lpow L' n w.
  Proof.
    intros HL. revert w. induction n as [|n IH]; cbn; intros w X; [exact X|]. destruct X as (u & v & -> & X & Y). apply lcat_app; auto.
  Qed.
End Langs.

Section P.
  Context {A : Type} {EA : EqDec A}.
  Variable eps : A.
  Notation frag := (nfa A * nat * nat)%type.

  Notation pre := (pre eps).
  Notation good := (good eps).
  Definition L (x : frag) : lang A := let '(g, q0, f) := x in fun w => nrun (ntrans g) eps q0 w f.

  Lemma ntrans_source g q a r : ntrans g q a r -> In q (N_vertices g).
  Proof. unfold ntrans, N_get, N_vertices. destruct (dget (nf_adj g) q) eqn:E; [intros _; eapply dget_Some_key; exact E|intros []]. Qed.

  Lemma add_edge_ok (g : nfa A) q r a : nwf (nf_adj g) -> In q (N_vertices g) ->
    let g' := add_edge g q r a in
    nwf (nf_adj g') /\ same_but_adj g g' /\ N_vertices g' = N_vertices g /\
    forall q' a' r', ntrans g' q' a' r' <-> ntrans g q' a' r' \/ (q' = q /\ a' = a /\ r' = r).
  Proof.
    intros W I g'. destruct (add_edge_spec g q r a W) as (g1 & n & E & W1 & S1 & V1 & T1). unfold g', add_edge. rewrite E. cbn [fst].
    split; [exact W1|]. split; [exact S1|]. split; [|exact T1]. rewrite V1. unfold sadd. apply mem_spec in I. rewrite I. reflexivity.
  Qed.

  Lemma add_vertex_ok (g : nfa A) : nwf (nf_adj g) -> (forall v, In v (N_vertices g) -> v < nf_last g) ->
    let g' := fst (add_vertex g) in
    nwf (nf_adj g') /\ nf_last g' = S (nf_last g) /\ N_vertices g' = N_vertices g ++ [nf_last g] /\
    nf_init g' = nf_init g /\ nf_final g' = nf_final g /\ nf_eps g' = nf_eps g /\
    forall q a r, ntrans g' q a r <-> ntrans g q a r.
  Proof.
    intros W HV g'. assert (NI : ~ In (nf_last g) (N_vertices g)) by (intros X; apply HV in X; lia).
    cbn. unfold N_vertices in *. cbn. split; [apply nwf_dset; [exact W|constructor|discriminate]|]. split; [reflexivity|].
    split; [apply dkeys_dset_new; exact NI|]. repeat (split; [reflexivity|]).
    intros q a r. unfold ntrans, N_get. cbn. rewrite dget_dset. destruct (eqb_spec q (nf_last g)) as [->|]; [|reflexivity].
    rewrite (proj2 (dget_None _ _) NI). reflexivity.
  Qed.

  (** insert_automaton *)
  Lemma insert_vertices_ok (g2 : nfa A) qs : forall (g1 : nfa A) (m : dict nat nat),
    nwf (nf_adj g1) -> (forall v, In v (N_vertices g1) -> v < nf_last g1) -> NoDup qs -> (forall q, In q qs -> ~ In q (dkeys m)) ->
    let '(g', m') := insert_vertices g2 qs g1 m in
    nwf (nf_adj g') /\ (forall v, In v (N_vertices g') -> v < nf_last g') /\ nf_last g1 <= nf_last g' /\
    nf_init g' = nf_init g1 /\ nf_eps g' = nf_eps g1 /\
    (forall q a r, ntrans g' q a r <-> ntrans g1 q a r) /\
    (forall q, ~ In q qs -> dget m' q = dget m q) /\
    (forall q, In q qs -> exists v, dget m' q = Some v /\ nf_last g1 <= v < nf_last g') /\
    (forall q q' v, In q qs -> In q' qs -> dget m' q = Some v -> dget m' q' = Some v -> q = q') /\
    (forall v, In v (N_vertices g') <-> In v (N_vertices g1) \/ exists q, In q qs /\ dget m' q = Some v) /\
    (forall v, v < nf_last g1 -> nf_final g' v = nf_final g1 v) /\
    (forall v, nf_final g' v = true -> nf_final g1 v = true \/ exists q, In q qs /\ dget m' q = Some v /\ nf_final g2 q = true) /\
    (forall q v, In q qs -> dget m' q = Some v -> nf_final g2 q = true -> nf_final g' v = true).
  Proof.
    induction qs as [|q2 qs IH]; intros g1 m W HV ND DJ; cbn [insert_vertices].
    - repeat (split; [first [assumption | reflexivity | lia | intros; first [reflexivity|contradiction]]|]). split.
      { intros v. split; [tauto|]. intros [X|(q & [] & _)]. exact X. }
      split; [reflexivity|]. split; [tauto|]. intros q v [].
    - inversion ND as [|? ? N1 N2]; subst.
      assert (Dm : dmem m q2 = false) by (apply dmem_false, DJ; left; reflexivity). rewrite Dm.
      destruct (add_vertex_ok g1 W HV) as (W1 & L1 & V1 & I1 & F1 & E1 & T1). unfold add_vertex in *. cbn [fst] in *.
      set (ga := fst (N_add_vertex g1)) in *.
      set (gb := if N_is_final g2 q2 then N_set_final ga (nf_last g1) true else ga).
      assert (Hb : nf_adj gb = nf_adj ga /\ nf_last gb = nf_last ga /\ nf_init gb = nf_init ga /\ nf_eps gb = nf_eps ga /\
                   forall v, nf_final gb v = if (v =? nf_last g1) && nf_final g2 q2 then true else nf_final ga v).
      { unfold gb, N_is_final. destruct (nf_final g2 q2); cbn; repeat split; intros v; destruct (v =? nf_last g1); reflexivity. }
      clearbody gb. destruct Hb as (Ba & Bl & Bi & Be & Bf).
      assert (Vb : N_vertices gb = N_vertices g1 ++ [nf_last g1]) by (unfold N_vertices in *; rewrite Ba; exact V1).
      specialize (IH gb (dset m q2 (nf_last g1))).
      destruct (insert_vertices g2 qs gb (dset m q2 (nf_last g1))) as [g' m'].
      destruct IH as (W' & V' & Le & I' & E' & T' & M1 & M2 & M3 & Vs & F' & F2 & F3).
      + rewrite Ba. exact W1.
      + intros v. rewrite Vb, in_app_iff, Bl, L1. cbn. intros [X|[<-|[]]]; [apply HV in X|]; lia.
      + exact N2.
      + intros q I X. apply In_dkeys_dset in X. destruct X as [->|X]; [contradiction|]. apply (DJ q); [right; exact I|exact X].
      + rewrite Bl, L1 in *. rewrite Bi, I1 in I'. rewrite Be, E1 in E'.
        assert (Mq2 : dget m' q2 = Some (nf_last g1)) by (rewrite M1 by exact N1; apply dget_dset_same).
        repeat (split; [first [assumption | lia]|]). split.
        { intros q a r. rewrite T'. rewrite <- T1. unfold ntrans, N_get. rewrite Ba. reflexivity. }
        split. { intros q NI. rewrite M1 by (intros X; apply NI; right; exact X). apply dget_dset_other. intros ->. apply NI. left. reflexivity. }
        split. { intros q [<-|I]; [exists (nf_last g1); split; [exact Mq2|lia]|]. destruct (M2 q I) as (v & Ev & B). exists v. split; [exact Ev|lia]. }
        split. { intros q q' v [<-|I] [<-|J] Eq Eq'; [reflexivity| | |eapply M3; eassumption].
          - rewrite Mq2 in Eq. injection Eq as <-. destruct (M2 q' J) as (v & Ev & B). rewrite Eq' in Ev. injection Ev as <-. lia.
          - rewrite Mq2 in Eq'. injection Eq' as <-. destruct (M2 q I) as (v & Ev & B). rewrite Eq in Ev. injection Ev as <-. lia. }
        split. { intros v. rewrite Vs, Vb, in_app_iff. cbn. split.
          - intros [[X|[<-|[]]]|(q & I & X)]; [left; exact X|right; exists q2; auto|right; exists q; auto].
          - intros [X|(q & [<-|I] & X)]; [tauto| |right; exists q; auto]. rewrite Mq2 in X. injection X as <-. tauto. }
        split. { intros v B. rewrite F' by lia. rewrite Bf, F1. destruct (Nat.eqb_spec v (nf_last g1)); [lia|reflexivity]. }
        split. { intros v Fv. apply F2 in Fv. destruct Fv as [Fv|(q & I & X)]; [|right; exists q; split; [right|]; tauto].
          rewrite Bf, F1 in Fv. destruct (Nat.eqb_spec v (nf_last g1)) as [Ev|]; [|tauto]. rewrite Ev in *.
          destruct (nf_final g2 q2) eqn:Fq; [|tauto]. right. exists q2. split; [left; reflexivity|auto]. }
        intros q v [<-|I] Eq Fq; [|eapply F3; eassumption]. rewrite Mq2 in Eq. injection Eq as <-. rewrite F' by lia. rewrite Bf, Fq, Nat.eqb_refl. reflexivity.
  Qed.

  (** the numbers given to consecutive vertices are consecutive *)
  Lemma insert_vertices_num (g2 : nfa A) n : forall a (g1 : nfa A) m, (forall q, In q (seq a n) -> ~ In q (dkeys m)) ->
    let '(g', m') := insert_vertices g2 (seq a n) g1 m in
    (forall i, i < n -> dget m' (a + i) = Some (nf_last g1 + i)) /\ (forall q, q < a -> dget m' q = dget m q).
  Proof.
    induction n as [|n IH]; intros a g1 m DJ; cbn [seq insert_vertices]; [split; [intros; lia|reflexivity]|].
    assert (Dm : dmem m a = false) by (apply dmem_false, DJ; left; reflexivity). rewrite Dm.
    unfold add_vertex. cbv beta iota. set (gb := if N_is_final g2 a then _ else _).
    assert (Lb : nf_last gb = S (nf_last g1)) by (unfold gb; destruct (N_is_final g2 a); reflexivity).
    specialize (IH (S a) gb (dset m a (nf_last g1))). destruct (insert_vertices g2 (seq (S a) n) gb (dset m a (nf_last g1))) as [g' m'].
    destruct IH as [N1 N2].
    { intros q I X. apply In_dkeys_dset in X. destruct X as [->|X]; [apply in_seq in I; lia|]. apply (DJ q); [right; exact I|exact X]. }
    split.
    - intros [|i] Hi.
      + rewrite !Nat.add_0_r. rewrite N2 by lia. apply dget_dset_same.
      + rewrite !Nat.add_succ_r, <- !Nat.add_succ_l, N1 by lia. rewrite Lb. reflexivity.
    - intros q Hq. rewrite N2 by lia. apply dget_dset_other. lia.
  Qed.
  Lemma insert_vertices_seq (g2 : nfa A) qs : forall (g1 : nfa A) m, nwf (nf_adj g1) -> (forall v, In v (N_vertices g1) -> v < nf_last g1) ->
    N_vertices g1 = seq 0 (nf_last g1) -> let g' := fst (insert_vertices g2 qs g1 m) in N_vertices g' = seq 0 (nf_last g').
  Proof.
    induction qs as [|q qs IH]; intros g1 m W HV E; cbn [insert_vertices]; [exact E|]. destruct (dmem m q); [apply IH; assumption|].
    destruct (add_vertex_ok g1 W HV) as (W1 & L1 & V1 & _). unfold add_vertex in *. cbn [fst] in *. cbv beta iota.
    set (gb := if N_is_final g2 q then _ else _).
    assert (Lb : nf_last gb = S (nf_last g1)) by (unfold gb; destruct (N_is_final g2 q); reflexivity).
    assert (Vb : N_vertices gb = N_vertices g1 ++ [nf_last g1]) by (unfold gb; destruct (N_is_final g2 q); exact V1).
    assert (Wb : nwf (nf_adj gb)) by (unfold gb; destruct (N_is_final g2 q); exact W1).
    apply IH; [exact Wb| |].
    - rewrite Vb, Lb. intros v I. apply in_app_iff in I. destruct I as [I|[<-|[]]]; [apply HV in I|]; lia.
    - rewrite Vb, Lb, E, seq_S. reflexivity.
  Qed.

  Lemma insert_edges_ok (m : dict nat nat) es : forall (g1 : nfa A), nwf (nf_adj g1) ->
    (forall e : edge (A * list nat), In e es -> exists q1 r1, dget m (source e) = Some q1 /\ dget m (target e) = Some r1 /\ In q1 (N_vertices g1)) ->
    exists g', insert_edges es g1 m = Ok g' /\ nwf (nf_adj g') /\ same_but_adj g1 g' /\ N_vertices g' = N_vertices g1 /\
      forall q a r, ntrans g' q a r <-> ntrans g1 q a r \/
        exists e, In e es /\ dget m (source e) = Some q /\ N_label e = a /\ dget m (target e) = Some r.
  Proof.
    induction es as [|e es IH]; intros g1 W HE; cbn [insert_edges].
    - exists g1. split; [reflexivity|]. split; [exact W|]. split; [repeat split|]. split; [reflexivity|]. intros q a r. split; [tauto|]. intros [X|(e & [] & _)]. exact X.
    - destruct (HE e (or_introl eq_refl)) as (q1 & r1 & E1 & E2 & I1). rewrite E1, E2.
      destruct (add_edge_ok g1 q1 r1 (N_label e) W I1) as (Wa & Sa & Va & Ta).
      destruct (IH (add_edge g1 q1 r1 (N_label e)) Wa) as (g' & E & W' & S' & V' & T').
      { intros e' I. destruct (HE e' (or_intror I)) as (q' & r' & X1 & X2 & X3). exists q', r'. rewrite Va. auto. }
      exists g'. split; [exact E|]. split; [exact W'|]. split; [unfold same_but_adj in *; destruct S' as (-> & -> & -> & ->); exact Sa|].
      split; [congruence|]. intros q a r. rewrite T', Ta. split.
      + intros [[X|(-> & -> & ->)]|(e' & I & X)]; [tauto|right; exists e; split; [left; reflexivity|auto]|].
        right. exists e'. split; [right; exact I|exact X].
      + intros [X|(e' & [<-|I] & X1 & X2 & X3)]; [tauto| |right; exists e'; auto]. left. right. rewrite E1 in X1. rewrite E2 in X3. split; [congruence|split; congruence].
  Qed.

  (** the copy of [g2] in [g1], through the map [m] *)
  Record inserted (g1 g2 g' : nfa A) (m : nat -> nat) : Prop := {
    in_wf : nwf (nf_adj g');
    in_V : forall v, In v (N_vertices g') <-> In v (N_vertices g1) \/ exists q, In q (N_vertices g2) /\ v = m q;
    in_b : forall v, In v (N_vertices g') -> v < nf_last g';
    in_last : nf_last g1 <= nf_last g';
    in_m : forall q, In q (N_vertices g2) -> nf_last g1 <= m q;
    in_inj : forall q q', In q (N_vertices g2) -> In q' (N_vertices g2) -> m q = m q' -> q = q';
    in_T : forall q a r, ntrans g' q a r <-> ntrans g1 q a r \/ exists q2 r2, ntrans g2 q2 a r2 /\ q = m q2 /\ r = m r2;
    in_I : nf_init g' = nf_init g1;
    in_eps : nf_eps g' = nf_eps g1;
    in_F1 : forall v, v < nf_last g1 -> nf_final g' v = nf_final g1 v;
    in_F2 : forall v, nf_final g' v = true -> nf_final g1 v = true \/ exists q, In q (N_vertices g2) /\ v = m q /\ nf_final g2 q = true;
    in_F3 : forall q, In q (N_vertices g2) -> nf_final g2 q = true -> nf_final g' (m q) = true;
    ins_num : forall n q, N_vertices g2 = seq 0 n -> q < n -> m q = nf_last g1 + q;
    ins_seq : N_vertices g1 = seq 0 (nf_last g1) -> N_vertices g' = seq 0 (nf_last g') }.

  Lemma insert_automaton_ok (g1 g2 : nfa A) : nwf (nf_adj g1) -> (forall v, In v (N_vertices g1) -> v < nf_last g1) ->
    nwf (nf_adj g2) -> (forall q a r, ntrans g2 q a r -> In q (N_vertices g2) /\ In r (N_vertices g2)) ->
    exists g' d m, insert_automaton g1 g2 = Ok (g', d) /\ (forall q, In q (N_vertices g2) -> dget d q = Some (m q)) /\ inserted g1 g2 g' m.
  Proof.
    intros W1 V1 W2 T2. unfold insert_automaton.
    pose proof (insert_vertices_ok g2 (N_vertices g2) g1 [] W1 V1 (proj1 W2) (fun _ _ X => X)) as HV.
    pose proof (insert_vertices_seq g2 (N_vertices g2) g1 [] W1 V1) as HS.
    assert (HN : forall n, N_vertices g2 = seq 0 n -> forall i, i < n -> dget (snd (insert_vertices g2 (N_vertices g2) g1 [])) i = Some (nf_last g1 + i)).
    { intros n -> i Hi. pose proof (insert_vertices_num g2 n 0 g1 [] (fun _ _ X => X)) as X. destruct (insert_vertices g2 (seq 0 n) g1 []) as [ga d].
      apply X. exact Hi. }
    destruct (insert_vertices g2 (N_vertices g2) g1 []) as [ga d]. cbn [fst snd] in HS, HN.
    destruct HV as (Wa & Va & Le & Ia & Ea & Ta & _ & M2 & M3 & Vs & F' & F2 & F3).
    set (m := fun q => match dget d q with Some v => v | None => 0 end).
    assert (Md : forall q, In q (N_vertices g2) -> dget d q = Some (m q)).
    { intros q I. destruct (M2 q I) as (v & E & _). unfold m. rewrite E. reflexivity. }
    destruct (insert_edges_ok d (N_edges g2) ga Wa) as (g' & E & W' & S' & V' & T').
    { intros [q r [a n]] I. assert (X : ntrans g2 q a r) by (apply In_N_edges_ntrans; [exact W2|exists n; exact I]).
      destruct (T2 _ _ _ X) as [Iq Ir]. exists (m q), (m r). cbn [source target]. split; [apply Md; exact Iq|]. split; [apply Md; exact Ir|].
      apply Vs. right. exists q. split; [exact Iq|apply Md; exact Iq]. }
    rewrite E. cbn [rbind]. exists g', d, m. split; [reflexivity|]. split; [exact Md|].
    destruct S' as (Sl & Si & Sf & Se).
    constructor.
    - exact W'.
    - intros v. rewrite V', Vs. split; intros [X|(q & I & X)]; auto; right; exists q; (split; [exact I|]); rewrite (Md q I) in *; congruence.
    - intros v. rewrite V', Sl. apply Va.
    - rewrite Sl. exact Le.
    - intros q I. destruct (M2 q I) as (v & Ev & B). rewrite (Md q I) in Ev. injection Ev as <-. lia.
    - intros q q' I I' Em. apply (M3 q q' (m q) I I'); [apply Md; exact I|]. rewrite (Md q' I'). congruence.
    - intros q a r. rewrite T', Ta. apply or_iff_compat_l. split.
      + intros ([q2 r2 [a2 n]] & I & X1 & X2 & X3). cbn in X1, X2, X3. subst a2. assert (X : ntrans g2 q2 a r2) by (apply In_N_edges_ntrans; [exact W2|exists n; exact I]).
        destruct (T2 _ _ _ X) as [Iq Ir]. exists q2, r2. split; [exact X|]. rewrite (Md q2 Iq) in X1. rewrite (Md r2 Ir) in X3. split; congruence.
      + intros (q2 & r2 & X & -> & ->). destruct (T2 _ _ _ X) as [Iq Ir]. apply (In_N_edges_ntrans g2 q2 r2 a W2) in X. destruct X as (n & I).
        eexists. split; [exact I|]. cbn. auto.
    - congruence.
    - congruence.
    - intros v B. rewrite Sf. apply F'. exact B.
    - intros v. rewrite Sf. intros X. apply F2 in X. destruct X as [X|(q & I & X1 & X2)]; [tauto|]. right. exists q. split; [exact I|].
      rewrite (Md q I) in X1. split; congruence.
    - intros q I Fq. rewrite Sf. apply (F3 q); [exact I|apply Md; exact I|exact Fq].
    - intros n q En Hq. unfold m. rewrite (HN n En q Hq). reflexivity.
    - intros X. rewrite V', Sl. exact (HS X).
  Qed.

  (** acceptance *)
  Lemma accepts_L g q0 f w : good (g, q0, f) -> ~ In eps w -> (N_accepts g w = Some true <-> L (g, q0, f) w).
  Proof.
    intros [P F] NE. destruct P as [W V T Ii Iq If PF Pe]. destruct (N_accepts_spec g w) as (b & E & Hb); [congruence|]. rewrite E. cbn [L].
    rewrite <- Pe in *. split.
    - intros X. injection X as ->. destruct (proj1 Hb eq_refl) as (q & t & I & R & Ft). rewrite Ii in I. destruct I as [<-|[]].
      apply PF in Ft. subst t. rewrite Pe in R. rewrite Pe. exact R.
    - intros R. f_equal. apply Hb. exists q0, f. rewrite Ii. split; [left; reflexivity|]. split; [|exact F]. exact R.
  Qed.

  Lemma literal_ok a : a <> eps -> good (literal eps a) /\ (forall w, L (literal eps a) w <-> lsym (eq a) w).
  Proof.
    intros N. assert (Wf0 : nwf (nf_adj (N_init 2 [] eps))) by apply (r_wf _ _ _ (N_init_rep 2 [] eps)).
    unfold literal. destruct (add_edge_ok (N_init 2 [] eps) 0 1 a Wf0) as (Wa & (Sl & Si & Sf & Se) & Va & Ta); [left; reflexivity|].
    set (g := add_edge (N_init 2 [] eps) 0 1 a) in *. clearbody g.
    assert (T0 : forall q b r, ~ ntrans (N_init 2 [] eps) q b r).
    { intros q b r X. apply (r_T _ _ _ (N_init_rep 2 [] eps)) in X. exact X. }
    assert (Tg : forall q b r, ntrans g q b r <-> q = 0 /\ b = a /\ r = 1).
    { intros q b r. rewrite Ta. split; [intros [X|X]; [destruct (T0 _ _ _ X)|exact X]|tauto]. }
    assert (Vg : N_vertices g = [0; 1]) by (rewrite Va; reflexivity).
    cbn [good L]. split.
    - split; [|cbn; reflexivity]. constructor; cbn [nf_adj N_set_final nf_last nf_init nf_final nf_eps]; auto.
      + change (forall v, In v (N_vertices g) -> v < nf_last g). rewrite Vg, Sl. cbn. intros v [<-|[<-|[]]]; lia.
      + intros q b r X. change (ntrans g q b r) in X. apply Tg in X. destruct X as (-> & -> & ->). change (In 0 (N_vertices g) /\ In 1 (N_vertices g)). rewrite Vg. cbn. auto.
      + change (In 0 (N_vertices g)). rewrite Vg. left. reflexivity.
      + change (In 1 (N_vertices g)). rewrite Vg. right. left. reflexivity.
      + intros v. rewrite Sf. destruct (Nat.eqb_spec v 1); [auto|discriminate].
    - intros w. change (ntrans (N_set_final g 1 true)) with (ntrans g). split.
      + intros R. assert (X : (0 = 0 -> lsym (eq a) w) /\ (0 = 1 -> w = [])); [|apply X; reflexivity].
        revert R. apply (nrun_goal eps (ntrans g) (fun q w => (q = 0 -> lsym (eq a) w) /\ (q = 1 -> w = [])) 1).
        * split; [discriminate|reflexivity].
        * intros q r u X. apply Tg in X. destruct X as (_ & X & _). congruence.
        * intros q b r u Nb X [_ G]. apply Tg in X. destruct X as (-> & -> & ->). split; [|discriminate]. intros _. exists a. rewrite G by reflexivity. auto.
      + intros (b & -> & <-). eapply nrun_cons; [exact N|apply Tg; auto|constructor].
  Qed.

  Lemma bracket_ok chars : ~ In eps chars -> good (bracket eps chars) /\ (forall w, L (bracket eps chars) w <-> lsym (fun a => In a chars) w).
  Proof.
    intros N. unfold bracket.
    assert (Wf0 : nwf (nf_adj (N_init 2 [] eps))) by apply (r_wf _ _ _ (N_init_rep 2 [] eps)).
    assert (T0 : forall q b r, ~ ntrans (N_init 2 [] eps) q b r).
    { intros q b r X. apply (r_T _ _ _ (N_init_rep 2 [] eps)) in X. exact X. }
    assert (HF : forall cs (g : nfa A), nwf (nf_adj g) -> N_vertices g = [0; 1] ->
      let g' := fold_left (fun g a => add_edge g 0 1 a) cs g in
      nwf (nf_adj g') /\ same_but_adj g g' /\ N_vertices g' = [0; 1] /\
      forall q b r, ntrans g' q b r <-> ntrans g q b r \/ q = 0 /\ In b cs /\ r = 1).
    { induction cs as [|c cs IH]; intros g W V; cbn [fold_left].
      - split; [exact W|]. split; [repeat split|]. split; [exact V|]. intros q b r. split; [tauto|]. intros [X|(_ & [] & _)]. exact X.
      - destruct (add_edge_ok g 0 1 c W) as (Wa & Sa & Va & Ta); [rewrite V; left; reflexivity|].
        destruct (IH (add_edge g 0 1 c) Wa (eq_trans Va V)) as (W' & S' & V' & T'). split; [exact W'|].
        split; [unfold same_but_adj in *; destruct S' as (-> & -> & -> & ->); exact Sa|]. split; [exact V'|].
        intros q b r. rewrite T', Ta. cbn. split; [intros [[X|(-> & -> & ->)]|(-> & I & ->)]; tauto|]. intros [X|(-> & [->|I] & ->)]; tauto. }
    destruct (HF chars (N_set_final (N_init 2 [] eps) 1 true) Wf0 eq_refl) as (Wa & (Sl & Si & Sf & Se) & Vg & Ta).
    set (g := fold_left (fun g a => add_edge g 0 1 a) chars _) in *. clearbody g. clear HF.
    assert (Tg : forall q b r, ntrans g q b r <-> q = 0 /\ In b chars /\ r = 1).
    { intros q b r. rewrite Ta. split; [intros [X|X]; [destruct (T0 _ _ _ X)|exact X]|tauto]. }
    cbn [good L]. split.
    - split; [|rewrite Sf; reflexivity]. constructor; auto.
      + rewrite Vg, Sl. cbn. intros v [<-|[<-|[]]]; lia.
      + intros q b r X. apply Tg in X. destruct X as (-> & _ & ->). rewrite Vg. cbn. auto.
      + rewrite Vg. left. reflexivity.
      + rewrite Vg. right. left. reflexivity.
      + intros v. rewrite Sf. cbn. destruct (Nat.eqb_spec v 1); [auto|discriminate].
    - intros w. split.
      + intros R. assert (X : (0 = 0 -> lsym (fun a => In a chars) w) /\ (0 = 1 -> w = [])); [|apply X; reflexivity].
        revert R. apply (nrun_goal eps (ntrans g) (fun q w => (q = 0 -> lsym (fun a => In a chars) w) /\ (q = 1 -> w = [])) 1).
        * split; [discriminate|reflexivity].
        * intros q r u X. apply Tg in X. destruct X as (_ & X & _). contradiction.
        * intros q b r u Nb X [_ G]. apply Tg in X. destruct X as (-> & I & ->). split; [|discriminate]. intros _. exists b. rewrite G by reflexivity. auto.
      + intros (b & -> & I). eapply nrun_cons; [intros ->; contradiction|apply Tg; auto|constructor].
  Qed.
End P.
