(** Lemmas on the Thompson constructions: the operations. *)
From Verif Require Import Base BaseProofs Graph Automaton Nfa NfaSpec NfaProofs Thompson ThompsonSpec ThompsonProofs.
#[local] Arguments dkeys : simpl never.

Section P.
  Context {A : Type} {EA : EqDec A}.
  Variable eps : A.
  Notation frag := (nfa A * nat * nat)%type.
  Notation pre := (pre eps).
  Notation good := (good eps).
  Notation L := (L eps).
  Notation V := N_vertices.

  Lemma lookup_ok (d : dict nat nat) q v : dget d q = Some v -> lookup d q = Ok v.
  Proof. unfold lookup. intros ->. reflexivity. Qed.

  Lemma concatenation_desc g1 q01 f1 g2 q02 f2 : pre g1 q01 f1 -> good (g2, q02, f2) ->
    exists g' m, concatenation (g1, q01, f1) (g2, q02, f2) = Ok (g', q01, m f2) /\ good (g', q01, m f2) /\
      nf_last g1 <= nf_last g' /\
      (forall v, In v (V g') <-> In v (V g1) \/ exists q, In q (V g2) /\ v = m q) /\
      (forall q, In q (V g2) -> nf_last g1 <= m q) /\
      (forall q q', In q (V g2) -> In q' (V g2) -> m q = m q' -> q = q') /\
      (forall q a r, ntrans g' q a r <-> ntrans g1 q a r \/ (exists q2 r2, ntrans g2 q2 a r2 /\ q = m q2 /\ r = m r2) \/
                                         (q = f1 /\ a = eps /\ r = m q02)) /\
      (forall n q, V g2 = seq 0 n -> q < n -> m q = nf_last g1 + q) /\
      (V g1 = seq 0 (nf_last g1) -> V g' = seq 0 (nf_last g')).
  Proof.
    intros [W1 V1 T1 I1 Q1 F1 PF1 E1] [[W2 V2 T2 I2 Q2 F2 PF2 E2] Ff2].
    destruct (insert_automaton_ok g1 g2 W1 V1 W2 T2) as (g & d & m & Ei & Md & [Gw Gv Gb Gl Gm Gi Gt GI Ge GF1 GF2 GF3 GN GS]).
    unfold concatenation. rewrite Ei. cbn [rbind]. rewrite (lookup_ok d q02 (m q02)) by auto. cbn [rbind].
    rewrite (lookup_ok d f2 (m f2)) by auto. cbn [rbind].
    assert (If1 : In f1 (V g)) by (apply Gv; left; exact F1).
    destruct (add_edge_ok g f1 (m q02) (nf_eps g) Gw If1) as (Wa & (Sl & Si & Sf & Se) & Va & Ta).
    set (ga := add_edge g f1 (m q02) (nf_eps g)) in *. clearbody ga. rewrite Ge, E1 in Ta.
    set (g' := N_set_final (N_set_initials ga [q01]) f1 false). exists g', m.
    assert (Ng : forall q a r, ntrans g' q a r <-> ntrans g1 q a r \/ (exists q2 r2, ntrans g2 q2 a r2 /\ q = m q2 /\ r = m r2) \/
                                         (q = f1 /\ a = eps /\ r = m q02)).
    { intros q a r. change (ntrans g' q a r) with (ntrans ga q a r). rewrite Ta, Gt. tauto. }
    assert (Vg : V g' = V g) by exact Va.
    assert (Bf1 : f1 < nf_last g1) by (apply V1, F1).
    split; [reflexivity|]. split; [split|].
    - constructor; unfold g'; cbn [nf_adj N_set_final N_set_initials nf_last nf_init nf_final nf_eps]; fold g'.
      + exact Wa.
      + intros v. rewrite Sl. change (V (mkNfa _ _ _ _ _)) with (V g'). rewrite Vg. apply Gb.
      + intros q a r X. apply Ng in X. rewrite Vg, !Gv. destruct X as [X|[(q2 & r2 & X & -> & ->)|(-> & -> & ->)]].
        * destruct (T1 _ _ _ X). tauto.
        * destruct (T2 _ _ _ X). split; right; eauto.
        * split; [left; exact F1|right; eauto].
      + reflexivity.
      + rewrite Vg, Gv. left. exact Q1.
      + rewrite Vg, Gv. right. eauto.
      + intros v. rewrite Sf. destruct (Nat.eqb_spec v f1) as [|N]; [discriminate|]. intros X. apply GF2 in X.
        destruct X as [X|(q & Iq & -> & X)]; [apply PF1 in X; contradiction|]. apply PF2 in X. congruence.
      + congruence.
    - unfold g'. cbn. rewrite Sf. specialize (Gm f2 F2). destruct (Nat.eqb_spec (m f2) f1); [lia|]. apply GF3; assumption.
    - split; [unfold g'; cbn; rewrite Sl; exact Gl|]. split; [intros v; rewrite Vg; apply Gv|]. split; [exact Gm|]. split; [exact Gi|]. split; [exact Ng|].
      split; [exact GN|]. intros X. rewrite Vg. unfold g'. cbn. rewrite Sl. exact (GS X).
  Qed.

  Lemma concatenation_ok g1 q01 f1 x2 : pre g1 q01 f1 -> good x2 ->
    exists x, concatenation (g1, q01, f1) x2 = Ok x /\ good x /\ forall w, L x w <-> lcat (L (g1, q01, f1)) (L x2) w.
  Proof.
    destruct x2 as [[g2 q02] f2]. intros P1 P2.
    destruct (concatenation_desc g1 q01 f1 g2 q02 f2 P1 P2) as (g' & m & E & G & _ & Vg & Gm & Gi & T & _). eexists. split; [exact E|]. split; [exact G|].
    destruct P1 as [W1 V1 T1 I1 Q1 F1 PF1 E1]. destruct P2 as [[W2 V2 T2 I2 Q2 F2 PF2 E2] Ff2]. cbn [ThompsonProofs.L].
    intros w. split.
    - intros R.
      assert (X : (In q01 (V g1) -> lcat (fun u => nrun (ntrans g1) eps q01 u f1) (fun v => nrun (ntrans g2) eps q02 v f2) w) /\
                  (forall x2, In x2 (V g2) -> q01 = m x2 -> nrun (ntrans g2) eps x2 w f2)); [|apply X; exact Q1].
      revert R. apply (nrun_goal eps (ntrans g') (fun q w =>
         (In q (V g1) -> lcat (fun u => nrun (ntrans g1) eps q u f1) (fun v => nrun (ntrans g2) eps q02 v f2) w) /\
         (forall x2, In x2 (V g2) -> q = m x2 -> nrun (ntrans g2) eps x2 w f2))); clear w.
      + split; [intros X; apply V1 in X; specialize (Gm f2 F2); lia|]. intros x2 I2' E'. apply Gi in E'; auto. subst. constructor.
      + intros q r w X [G1 G2]. apply T in X. split.
        * intros Iq. destruct X as [X|[(q2 & r2 & X & -> & ->)|(-> & _ & ->)]].
          -- destruct (G1 (proj2 (T1 _ _ _ X))) as (u & v & -> & X1 & X2). exists u, v. repeat split; auto. eapply nrun_eps; eassumption.
          -- apply V1 in Iq. specialize (Gm q2 (proj1 (T2 _ _ _ X))). lia.
          -- exists [], w. repeat split; [constructor|]. apply G2; [exact Q2|reflexivity].
        * intros x2 Ix ->. destruct X as [X|[(q2 & r2 & X & Eq & ->)|(Eq & _ & ->)]].
          -- apply T1 in X. destruct X as [X _]. apply V1 in X. specialize (Gm x2 Ix). lia.
          -- apply Gi in Eq; [|exact Ix|exact (proj1 (T2 _ _ _ X))]. subst q2. eapply nrun_eps; [exact X|]. apply G2; [exact (proj2 (T2 _ _ _ X))|reflexivity].
          -- apply V1 in F1. specialize (Gm x2 Ix). lia.
      + intros q a r w Na X [G1 G2]. apply T in X. split.
        * intros Iq. destruct X as [X|[(q2 & r2 & X & -> & ->)|(-> & ? & ->)]]; [| |contradiction].
          -- destruct (G1 (proj2 (T1 _ _ _ X))) as (u & v & -> & X1 & X2). exists (a :: u), v. repeat split; auto. eapply nrun_cons; eassumption.
          -- apply V1 in Iq. specialize (Gm q2 (proj1 (T2 _ _ _ X))). lia.
        * intros x2 Ix ->. destruct X as [X|[(q2 & r2 & X & Eq & ->)|(Eq & ? & ->)]]; [| |contradiction].
          -- apply T1 in X. destruct X as [X _]. apply V1 in X. specialize (Gm x2 Ix). lia.
          -- apply Gi in Eq; [|exact Ix|exact (proj1 (T2 _ _ _ X))]. subst q2. eapply nrun_cons; [exact Na|exact X|]. apply G2; [exact (proj2 (T2 _ _ _ X))|reflexivity].
    - intros (u & v & -> & X1 & X2). eapply nrun_app; [eapply nrun_ext; [|exact X1]; intros; apply T; left; assumption|].
      eapply nrun_eps; [apply T; right; right; auto|]. eapply nrun_map; [|exact X2]. intros q a r X. apply T. right. left. eauto.
  Qed.

  (** nothing enters q0, nothing leaves f *)
  Definition clean (x : frag) : Prop :=
    let '(g, q0, f) := x in q0 <> f /\ (forall q a, ~ ntrans g q a q0) /\ (forall a r, ~ ntrans g f a r).

  Lemma alternation_ok x1 x2 : good x1 -> good x2 ->
    exists x, alternation x1 x2 = Ok x /\ good x /\ (forall w, L x w <-> lalt (L x1) (L x2) w) /\ clean x.
  Proof.
    destruct x1 as [[g1 q01] f1], x2 as [[g2 q02] f2]. intros [[W1 V1 T1 I1 Q1 F1 PF1 E1] Ff1] [[W2 V2 T2 I2 Q2 F2 PF2 E2] Ff2].
    destruct (insert_automaton_ok g1 g2 W1 V1 W2 T2) as (g & d & m & Ei & Md & [Gw Gv Gb Gl Gm Gi Gt GI Ge GF1 GF2 GF3 GN GS]).
    unfold alternation. rewrite Ei. cbn [rbind]. rewrite E1.
    destruct (add_vertex_ok g Gw Gb) as (Wa & La & Va & Ia & Fa & Ea & Ta). unfold add_vertex in *. cbn [fst] in *.
    set (ga := fst (N_add_vertex g)) in *. clearbody ga. set (q0 := nf_last g) in *.
    rewrite (lookup_ok d q02 (m q02)) by auto. cbn [rbind].
    destruct (add_edge_ok ga q0 q01 eps Wa) as (Wb & (Bl & Bi & Bf & Be) & Vb & Tb); [rewrite Va; apply in_app_iff; right; left; reflexivity|].
    set (gb := add_edge ga q0 q01 eps) in *. clearbody gb.
    destruct (add_edge_ok gb q0 (m q02) eps Wb) as (Wc & (Cl & Ci & Cf & Ce) & Vc & Tc); [rewrite Vb, Va; apply in_app_iff; right; left; reflexivity|].
    set (gc := add_edge gb q0 (m q02) eps) in *. clearbody gc.
    set (gc' := N_set_initials gc [q0]).
    destruct (add_vertex_ok gc' Wc) as (Wd & Ld & Vd & Id & Fd & Ed & Td).
    { intros v. change (V gc') with (V gc). change (nf_last gc') with (nf_last gc). rewrite Vc, Vb, Va, Cl, Bl, La. intros X. apply in_app_iff in X.
      destruct X as [X|[<-|[]]]; [apply Gb in X|]; unfold q0 in *; lia. }
    unfold add_vertex in *. cbn [fst] in *. set (gd := fst (N_add_vertex gc')) in *. clearbody gd. set (f := nf_last gc') in *.
    change (V gc') with (V gc) in Vd. change (nf_init gc') with [q0] in Id. change (nf_final gc') with (nf_final gc) in Fd. change (nf_eps gc') with (nf_eps gc) in Ed.
    change (ntrans gc') with (ntrans gc) in Td.
    assert (Ef : f = S q0) by (unfold f; change (nf_last gc') with (nf_last gc); rewrite Cl, Bl, La; reflexivity). clearbody f. clear gc'.
    assert (Vd' : forall v, In v (V gd) <-> In v (V g) \/ v = q0 \/ v = f).
    { intros v. rewrite Vd, Vc, Vb, Va, !in_app_iff. cbn. intuition. }
    rewrite (lookup_ok d f2 (m f2)) by auto. cbn [rbind].
    destruct (add_edge_ok gd f1 f eps Wd) as (We & (El & Ei' & Ef' & Ee) & Ve & Te); [apply Vd'; left; apply Gv; left; exact F1|].
    set (ge := add_edge gd f1 f eps) in *. clearbody ge.
    destruct (add_edge_ok ge (m f2) f eps We) as (Wf & (Fl & Fi & Ff & Fe) & Vf & Tf); [rewrite Ve; apply Vd'; left; apply Gv; right; eauto|].
    set (gf := add_edge ge (m f2) f eps) in *. clearbody gf.
    set (g' := N_set_final (N_set_final (N_set_final gf f1 false) (m f2) false) f true).
    assert (Ng : forall q a r, ntrans g' q a r <-> ntrans g1 q a r \/ (exists q2 r2, ntrans g2 q2 a r2 /\ q = m q2 /\ r = m r2) \/
              (a = eps /\ ((q = q0 /\ r = q01) \/ (q = q0 /\ r = m q02) \/ (q = f1 /\ r = f) \/ (q = m f2 /\ r = f)))).
    { intros q a r. change (ntrans g' q a r) with (ntrans gf q a r). rewrite Tf, Te, Td, Tc, Tb, Ta, Gt. tauto. }
    assert (Vg : forall v, In v (V g') <-> In v (V g) \/ v = q0 \/ v = f).
    { intros v. change (V g') with (V gf). rewrite Vf, Ve. apply Vd'. }
    assert (Lg : nf_last g' = S f) by (change (nf_last g') with (nf_last gf); rewrite Fl, El, Ld; reflexivity).
    assert (B1 : forall v, In v (V g1) -> v < q0) by (intros v X; apply Gb; apply Gv; left; exact X).
    assert (B2 : forall v, In v (V g2) -> m v < q0) by (intros v X; apply Gb; apply Gv; right; eauto).
    assert (B3 : forall u v, In u (V g1) -> In v (V g2) -> u <> m v) by (intros u v X Y; apply V1 in X; apply Gm in Y; lia).
    eexists. split; [reflexivity|]. split; [split|split].
    - constructor.
      + exact Wf.
      + intros v X. rewrite Lg. apply Vg in X. destruct X as [X|[->| ->]]; [apply Gb in X; unfold q0 in *; lia|lia|lia].
      + intros q a r X. rewrite !Vg. apply Ng in X. destruct X as [X|[(q2 & r2 & X & -> & ->)|(-> & X)]].
        * destruct (T1 _ _ _ X). rewrite !Gv. tauto.
        * destruct (T2 _ _ _ X). rewrite !Gv. split; left; right; eauto.
        * rewrite !Gv. destruct X as [(-> & ->)|[(-> & ->)|[(-> & ->)|(-> & ->)]]]; split; try tauto; left; right; eauto.
      + unfold g'. cbn. rewrite Fi, Ei', Id. reflexivity.
      + apply Vg. tauto.
      + apply Vg. tauto.
      + intros v. unfold g'. cbn. rewrite Ff, Ef', Fd, Cf, Bf, Fa. destruct (Nat.eqb_spec v f); [auto|]. destruct (Nat.eqb_spec v (m f2)) as [|N2]; [discriminate|].
        destruct (Nat.eqb_spec v f1) as [|N1]; [discriminate|]. intros X. apply GF2 in X.
        destruct X as [X|(q & Iq & -> & X)]; [apply PF1 in X|apply PF2 in X]; congruence.
      + unfold g'. cbn. congruence.
    - unfold g'. cbn. rewrite Nat.eqb_refl. reflexivity.
    - cbn [ThompsonProofs.L]. intros w. split.
      + intros R. assert (X : (q0 = q0 -> lalt (fun w => nrun (ntrans g1) eps q01 w f1) (fun w => nrun (ntrans g2) eps q02 w f2) w) /\
           (In q0 (V g1) -> nrun (ntrans g1) eps q0 w f1) /\ (forall x2, In x2 (V g2) -> q0 = m x2 -> nrun (ntrans g2) eps x2 w f2) /\ (q0 = f -> w = []));
          [|apply X; reflexivity].
        revert R. apply (nrun_goal eps (ntrans g') (fun q w =>
           (q = q0 -> lalt (fun w => nrun (ntrans g1) eps q01 w f1) (fun w => nrun (ntrans g2) eps q02 w f2) w) /\
           (In q (V g1) -> nrun (ntrans g1) eps q w f1) /\ (forall x2, In x2 (V g2) -> q = m x2 -> nrun (ntrans g2) eps x2 w f2) /\ (q = f -> w = []))); clear w.
        * split; [lia|]. split; [intros X; apply B1 in X; lia|]. split; [|reflexivity]. intros x2 X. apply B2 in X. lia.
        * intros q r w X (G1 & G2 & G3 & G4). apply Ng in X.
          destruct X as [X|[(q2 & r2 & X & -> & ->)|(_ & X)]].
          -- destruct (T1 _ _ _ X) as [J1 J2]. split; [intros ->; apply B1 in J1; lia|]. split; [intros _; eapply nrun_eps; eauto|].
             split; [intros x2 Y ->; destruct (B3 _ _ J1 Y); reflexivity|]. intros ->. apply B1 in J1. lia.
          -- destruct (T2 _ _ _ X) as [J1 J2]. pose proof (B2 _ J1). split; [lia|]. split; [intros Y; destruct (B3 _ _ Y J1); reflexivity|].
             split; [|lia]. intros x2 Y Eq. apply Gi in Eq; auto. subst x2. eapply nrun_eps; [exact X|]. apply G3; auto.
          -- destruct X as [(-> & ->)|[(-> & ->)|[(-> & ->)|(-> & ->)]]].
             ++ split; [intros _; left; auto|]. split; [intros Y; apply B1 in Y; lia|]. split; [|lia]. intros x2 Y. apply B2 in Y. lia.
             ++ split; [intros _; right; auto|]. split; [intros Y; apply B1 in Y; lia|]. split; [|lia]. intros x2 Y. apply B2 in Y. lia.
             ++ pose proof (B1 _ F1). rewrite (G4 eq_refl). split; [lia|]. split; [intros _; constructor|]. split; [|reflexivity].
                intros x2 Y Eq. destruct (B3 _ _ F1 Y Eq).
             ++ pose proof (B2 _ F2). rewrite (G4 eq_refl). split; [lia|]. split; [intros Y; destruct (B3 _ _ Y F2); reflexivity|]. split; [|reflexivity].
                intros x2 Y Eq. apply Gi in Eq; auto. subst x2. constructor.
        * intros q a r w Na X (G1 & G2 & G3 & G4). apply Ng in X.
          destruct X as [X|[(q2 & r2 & X & -> & ->)|(? & X)]]; [| |contradiction].
          -- destruct (T1 _ _ _ X) as [J1 J2]. split; [intros ->; apply B1 in J1; lia|]. split; [intros _; eapply nrun_cons; eauto|].
             split; [intros x2 Y ->; destruct (B3 _ _ J1 Y); reflexivity|]. intros ->. apply B1 in J1. lia.
          -- destruct (T2 _ _ _ X) as [J1 J2]. pose proof (B2 _ J1). split; [lia|]. split; [intros Y; destruct (B3 _ _ Y J1); reflexivity|].
             split; [|lia]. intros x2 Y Eq. apply Gi in Eq; auto. subst x2. eapply nrun_cons; [exact Na|exact X|]. apply G3; auto.
      + intros [R|R].
        * eapply nrun_eps; [apply Ng; right; right; split; [reflexivity|left; split; reflexivity]|]. rewrite <- (app_nil_r w).
          eapply nrun_app; [eapply nrun_ext; [|exact R]; intros; apply Ng; left; assumption|]. apply nrun_one. apply Ng. tauto.
        * eapply nrun_eps; [apply Ng; right; right; split; [reflexivity|right; left; split; reflexivity]|]. rewrite <- (app_nil_r w).
          eapply nrun_app; [eapply nrun_map; [|exact R]; intros q a r X; apply Ng; right; left; eauto|]. apply nrun_one. apply Ng. tauto.
    - split; [lia|]. split.
      + intros q a X. apply Ng in X. destruct X as [X|[(q2 & r2 & X & -> & Er)|(_ & X)]].
        * apply T1 in X. destruct X as [_ X]. apply B1 in X. lia.
        * apply T2 in X. destruct X as [_ X]. apply B2 in X. lia.
        * pose proof (B1 _ Q1). pose proof (B2 _ Q2). lia.
      + intros a r X. apply Ng in X. destruct X as [X|[(q2 & r2 & X & Er & ->)|(_ & X)]].
        * apply T1 in X. destruct X as [X _]. apply B1 in X. lia.
        * apply T2 in X. destruct X as [X _]. apply B2 in X. lia.
        * pose proof (B1 _ F1). pose proof (B2 _ F2). lia.
  Qed.

  (** the new states of zero_or_more and one_or_more: the initial one is entered from the final one only, which
      is left to the initial one only *)
  Definition loopy (x : frag) : Prop :=
    let '(g, q0, f) := x in q0 <> f /\ ntrans g f eps q0 /\ (forall q a, ntrans g q a q0 -> q = f /\ a = eps) /\
      (forall a r, ntrans g f a r -> a = eps /\ r = q0).

  (** zero_or_more and one_or_more; [b] tells whether there is a direct transition to the new final state *)
  Section Loop.
    Variables (g : nfa A) (q0 f : nat).
    Hypothesis G : good (g, q0, f).
    Variable b : bool.
    Variable g' : nfa A.
    Let nq := nf_last g.
    Let nf := S (nf_last g).
    Hypothesis Ng : forall q a r, ntrans g' q a r <-> ntrans g q a r \/
      (a = eps /\ ((q = nq /\ r = q0) \/ (q = f /\ r = nf) \/ (b = true /\ q = nq /\ r = nf) \/ (q = nf /\ r = nq))).

    Definition target_lang : lang A := if b then lstar (L (g, q0, f)) else lplus (L (g, q0, f)).

    Lemma loop_lang w : L (g', nq, nf) w <-> target_lang w.
    Proof.
      destruct G as [[W1 V1 T1 I1 Q1 F1 PF1 E1] Ff1].
      assert (SS : forall w, target_lang w -> lstar (L (g, q0, f)) w).
      { unfold target_lang. destruct b; intros u X; [exact X|]. destruct X as (n & _ & X). exists n. exact X. }
      cbn [ThompsonProofs.L]. split.
      - intros R. assert (X : (nq = nq -> target_lang w) /\ (nq = nf -> lstar (L (g, q0, f)) w) /\
            (In nq (V g) -> lcat (fun u => nrun (ntrans g) eps nq u f) (lstar (L (g, q0, f))) w)); [|apply X; reflexivity].
        revert R. apply (nrun_goal eps (ntrans g') (fun q w => (q = nq -> target_lang w) /\ (q = nf -> lstar (L (g, q0, f)) w) /\
            (In q (V g) -> lcat (fun u => nrun (ntrans g) eps q u f) (lstar (L (g, q0, f))) w))); clear w.
        + split; [unfold nf, nq; lia|]. split; [intros _; exists 0; reflexivity|]. intros X. apply V1 in X. unfold nf in X. lia.
        + intros q r w X (G1 & G2 & G3). apply Ng in X. destruct X as [X|(_ & X)].
          * destruct (T1 _ _ _ X) as [J1 J2]. pose proof (V1 _ J1). split; [unfold nq; lia|]. split; [unfold nf; lia|].
            intros _. destruct (G3 J2) as (u & v & -> & Y & Z). exists u, v. repeat split; auto. eapply nrun_eps; eauto.
          * pose proof (V1 _ F1). destruct X as [(-> & ->)|[(-> & ->)|[(Eb & -> & ->)|(-> & ->)]]].
            -- split; [|split; [unfold nf, nq; lia|intros Y; apply V1 in Y; unfold nq in Y; lia]]. intros _. destruct (G3 Q1) as (u & v & -> & Y & n & Z).
               assert (P : lpow (L (g, q0, f)) (S n) (u ++ v)) by (apply lcat_app; assumption).
               unfold target_lang. destruct b; exists (S n); [exact P|]. split; [lia|exact P].
            -- split; [unfold nq; lia|]. split; [unfold nf; lia|]. intros _. exists [], w. repeat split; [constructor|]. apply G2. reflexivity.
            -- split; [|split; [unfold nf, nq; lia|intros Y; apply V1 in Y; unfold nq in Y; lia]]. intros _. unfold target_lang. rewrite Eb. apply G2. reflexivity.
            -- split; [unfold nf, nq; lia|]. split; [intros _; apply SS, G1; reflexivity|]. intros Y. apply V1 in Y. unfold nf in Y. lia.
        + intros q a r w Na X (G1 & G2 & G3). apply Ng in X. destruct X as [X|(? & _)]; [|contradiction].
          destruct (T1 _ _ _ X) as [J1 J2]. pose proof (V1 _ J1). split; [unfold nq; lia|]. split; [unfold nf; lia|].
          intros _. destruct (G3 J2) as (u & v & -> & Y & Z). exists (a :: u), v. repeat split; auto. eapply nrun_cons; eauto.
      - assert (P : forall n w, lpow (L (g, q0, f)) (S n) w -> nrun (ntrans g') eps nq w nf).
        { intros n. induction n as [|n IH]; intros u X.
          - apply (proj1 (lpow_1 _ _)) in X. eapply nrun_eps; [apply Ng; right; split; [reflexivity|left; split; reflexivity]|]. rewrite <- (app_nil_r u).
            eapply nrun_app; [eapply nrun_ext; [|exact X]; intros; apply Ng; left; assumption|]. apply nrun_one. apply Ng. tauto.
          - destruct X as (u1 & u2 & -> & X1 & X2). eapply nrun_eps; [apply Ng; right; split; [reflexivity|left; split; reflexivity]|].
            eapply nrun_app; [eapply nrun_ext; [|exact X1]; intros; apply Ng; left; assumption|].
            eapply nrun_eps; [apply Ng; right; split; [reflexivity|right; left; split; reflexivity]|].
            eapply nrun_eps; [apply Ng; right; split; [reflexivity|right; right; right; split; reflexivity]|]. apply IH. exact X2. }
        unfold target_lang. destruct b.
        + intros (n & X). destruct n as [|n]; [|eapply P; exact X]. rewrite X. apply nrun_one. apply Ng. tauto.
        + intros (n & B & X). destruct n as [|n]; [lia|]. eapply P. exact X.
    Qed.

    Lemma loop_loopy : loopy (g', nq, nf).
    Proof.
      destruct G as [[W1 V1 T1 I1 Q1 F1 PF1 E1] Ff1]. pose proof (V1 _ Q1). pose proof (V1 _ F1). unfold loopy, nq, nf in *. split; [lia|]. split; [apply Ng; tauto|]. split.
      - intros q a X. apply Ng in X. destruct X as [X|(-> & X)]; [apply T1 in X; destruct X as [_ X]; apply V1 in X; lia|]. split; [lia|reflexivity].
      - intros a r X. apply Ng in X. destruct X as [X|(-> & X)]; [apply T1 in X; destruct X as [X _]; apply V1 in X; lia|]. split; [reflexivity|lia].
    Qed.
  End Loop.

  Lemma zero_or_more_ok x : good x -> good (zero_or_more x) /\ (forall w, L (zero_or_more x) w <-> lstar (L x) w) /\ loopy (zero_or_more x).
  Proof.
    destruct x as [[g q0] f]. intros G. pose proof G as [[W1 V1 T1 I1 Q1 F1 PF1 E1] Ff1]. unfold zero_or_more. rewrite E1.
    destruct (add_vertex_ok g W1 V1) as (Wa & La & Va & Ia & Fa & Ea & Ta). unfold add_vertex in *. cbn [fst] in *.
    set (ga := fst (N_add_vertex g)) in *. clearbody ga.
    destruct (add_vertex_ok ga Wa) as (Wb & Lb & Vb & Ib & Fb & Eb & Tb).
    { intros v. rewrite Va, La, in_app_iff. intros [X|[<-|[]]]; [apply V1 in X|]; lia. }
    unfold add_vertex in *. cbn [fst] in *. set (gb := fst (N_add_vertex ga)) in *. clearbody gb. rewrite La in *. set (nq := nf_last g) in *. set (nf := S nq) in *.
    assert (Vb' : forall v, In v (V gb) <-> In v (V g) \/ v = nq \/ v = nf) by (intros v; rewrite Vb, Va, !in_app_iff; cbn; intuition).
    destruct (add_edge_ok gb nq q0 eps Wb) as (Wc & (Cl & Ci & Cf & Ce) & Vc & Tc); [apply Vb'; tauto|]. set (gc := add_edge gb nq q0 eps) in *. clearbody gc.
    destruct (add_edge_ok gc f nf eps Wc) as (Wd & (Dl & Di & Df & De) & Vd & Td); [rewrite Vc; apply Vb'; tauto|]. set (gd := add_edge gc f nf eps) in *. clearbody gd.
    destruct (add_edge_ok gd nq nf eps Wd) as (We & (El & Ei & Ef & Ee) & Ve & Te); [rewrite Vd, Vc; apply Vb'; tauto|]. set (ge := add_edge gd nq nf eps) in *. clearbody ge.
    destruct (add_edge_ok ge nf nq eps We) as (Wf & (Fl & Fi & Ff & Fe) & Vf & Tf); [rewrite Ve, Vd, Vc; apply Vb'; tauto|]. set (gf := add_edge ge nf nq eps) in *. clearbody gf.
    set (g' := N_set_final (N_set_final (N_set_initials gf [nq]) f false) nf true).
    assert (Ng : forall q a r, ntrans g' q a r <-> ntrans g q a r \/
      (a = eps /\ ((q = nq /\ r = q0) \/ (q = f /\ r = nf) \/ (true = true /\ q = nq /\ r = nf) \/ (q = nf /\ r = nq)))).
    { intros q a r. change (ntrans g' q a r) with (ntrans gf q a r). rewrite Tf, Te, Td, Tc, Tb, Ta. tauto. }
    assert (Vg : forall v, In v (V g') <-> In v (V g) \/ v = nq \/ v = nf).
    { intros v. change (V g') with (V gf). rewrite Vf, Ve, Vd, Vc. apply Vb'. }
    split.
    - split; [|unfold g'; cbn; rewrite Nat.eqb_refl; reflexivity]. constructor.
      + exact Wf.
      + intros v X. change (nf_last g') with (nf_last gf). rewrite Fl, El, Dl, Cl, Lb. apply Vg in X. fold nf. destruct X as [X|[->| ->]]; [apply V1 in X; fold nq in X|..]; lia.
      + intros q a r X. rewrite !Vg. apply Ng in X. destruct X as [X|(_ & X)]; [destruct (T1 _ _ _ X); tauto|].
        destruct X as [(-> & ->)|[(-> & ->)|[(_ & -> & ->)|(-> & ->)]]]; tauto.
      + reflexivity.
      + apply Vg. tauto.
      + apply Vg. tauto.
      + intros v. unfold g'. cbn. rewrite Ff, Ef, Df, Cf, Fb, Fa. destruct (Nat.eqb_spec v nf); [auto|]. destruct (Nat.eqb_spec v f) as [|N]; [discriminate|].
        intros X. apply PF1 in X. contradiction.
      + unfold g'. cbn. congruence.
    - split; [intros w; exact (loop_lang g q0 f G true g' Ng w)|exact (loop_loopy g q0 f G true g' Ng)].
  Qed.

  Lemma one_or_more_ok x : good x -> good (one_or_more x) /\ (forall w, L (one_or_more x) w <-> lplus (L x) w) /\ loopy (one_or_more x).
  Proof.
    destruct x as [[g q0] f]. intros G. pose proof G as [[W1 V1 T1 I1 Q1 F1 PF1 E1] Ff1]. unfold one_or_more. rewrite E1.
    destruct (add_vertex_ok g W1 V1) as (Wa & La & Va & Ia & Fa & Ea & Ta). unfold add_vertex in *. cbn [fst] in *.
    set (ga := fst (N_add_vertex g)) in *. clearbody ga.
    destruct (add_vertex_ok ga Wa) as (Wb & Lb & Vb & Ib & Fb & Eb & Tb).
    { intros v. rewrite Va, La, in_app_iff. intros [X|[<-|[]]]; [apply V1 in X|]; lia. }
    unfold add_vertex in *. cbn [fst] in *. set (gb := fst (N_add_vertex ga)) in *. clearbody gb. rewrite La in *. set (nq := nf_last g) in *. set (nf := S nq) in *.
    assert (Vb' : forall v, In v (V gb) <-> In v (V g) \/ v = nq \/ v = nf) by (intros v; rewrite Vb, Va, !in_app_iff; cbn; intuition).
    destruct (add_edge_ok gb nq q0 eps Wb) as (Wc & (Cl & Ci & Cf & Ce) & Vc & Tc); [apply Vb'; tauto|]. set (gc := add_edge gb nq q0 eps) in *. clearbody gc.
    destruct (add_edge_ok gc f nf eps Wc) as (Wd & (Dl & Di & Df & De) & Vd & Td); [rewrite Vc; apply Vb'; tauto|]. set (gd := add_edge gc f nf eps) in *. clearbody gd.
    destruct (add_edge_ok gd nf nq eps Wd) as (Wf & (Fl & Fi & Ff & Fe) & Vf & Tf); [rewrite Vd, Vc; apply Vb'; tauto|]. set (gf := add_edge gd nf nq eps) in *. clearbody gf.
    set (g' := N_set_final (N_set_final (N_set_initials gf [nq]) f false) nf true).
    assert (Ng : forall q a r, ntrans g' q a r <-> ntrans g q a r \/
      (a = eps /\ ((q = nq /\ r = q0) \/ (q = f /\ r = nf) \/ (false = true /\ q = nq /\ r = nf) \/ (q = nf /\ r = nq)))).
    { intros q a r. change (ntrans g' q a r) with (ntrans gf q a r). rewrite Tf, Td, Tc, Tb, Ta.
      split; [tauto|]. intros [X|(-> & [X|[X|[(X & _)|X]]])]; try tauto. discriminate. }
    assert (Vg : forall v, In v (V g') <-> In v (V g) \/ v = nq \/ v = nf).
    { intros v. change (V g') with (V gf). rewrite Vf, Vd, Vc. apply Vb'. }
    split.
    - split; [|unfold g'; cbn; rewrite Nat.eqb_refl; reflexivity]. constructor.
      + exact Wf.
      + intros v X. change (nf_last g') with (nf_last gf). rewrite Fl, Dl, Cl, Lb. apply Vg in X. fold nf. destruct X as [X|[->| ->]]; [apply V1 in X; fold nq in X|..]; lia.
      + intros q a r X. rewrite !Vg. apply Ng in X. destruct X as [X|(_ & X)]; [destruct (T1 _ _ _ X); tauto|].
        destruct X as [(-> & ->)|[(-> & ->)|[(X & _)|(-> & ->)]]]; try tauto. discriminate.
      + reflexivity.
      + apply Vg. tauto.
      + apply Vg. tauto.
      + intros v. unfold g'. cbn. rewrite Ff, Df, Cf, Fb, Fa. destruct (Nat.eqb_spec v nf); [auto|]. destruct (Nat.eqb_spec v f) as [|N]; [discriminate|].
        intros X. apply PF1 in X. contradiction.
      + unfold g'. cbn. congruence.
    - split; [intros w; exact (loop_lang g q0 f G false g' Ng w)|exact (loop_loopy g q0 f G false g' Ng)].
  Qed.

  (** zero_or_one *)
  Lemma zero_or_one_desc g q0 f : good (g, q0, f) -> exists g', zero_or_one (g, q0, f) = (g', q0, f) /\ good (g', q0, f) /\
    nf_last g' = nf_last g /\ V g' = V g /\
    (forall q a r, ntrans g' q a r <-> ntrans g q a r \/ (q = q0 /\ a = eps /\ r = f)).
  Proof.
    intros [[W1 V1 T1 I1 Q1 F1 PF1 E1] Ff1]. unfold zero_or_one. rewrite E1.
    destruct (add_edge_ok g q0 f eps W1 Q1) as (Wa & (Al & Ai & Af & Ae) & Va & Ta). exists (add_edge g q0 f eps). split; [reflexivity|].
    split; [split; [constructor|]|split; [exact Al|split; [exact Va|exact Ta]]]; rewrite ?Va, ?Al, ?Ai, ?Af, ?Ae; auto.
    intros q a r X. apply Ta in X. destruct X as [X|(-> & -> & ->)]; [exact (T1 _ _ _ X)|]. auto.
  Qed.
End P.
