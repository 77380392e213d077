(** Lemmas on the results of moore_determination, hopcroft_minimize and revuz_minimize for two orders of iteration. *)
From Coq Require Import ZArith.
From Verif Require Import Graph GraphProofs Automaton AutomatonSpec AutomatonProofs AutomatonProofs2 Nfa NfaSpec NfaProofs NfaProofs2 TMoore Revuz RevuzSpec RevuzProofs RevuzProofs2 RevuzProofs3 RevuzCycleSpec TRevuz TRevuzCycle MinSpec OrderSpec Base BaseProofs.
#[local] Arguments dkeys : simpl never.

(** ** moore_determination *)
Section Moore.
  Context {A : Type} {EA : EqDec A}.
  Variables (g : nfa A) (complete : bool).

  Definition sameset (s t : list nat) : Prop := forall x, In x s <-> In x t.
  Lemma sigma_ext s t a : sameset s t -> in_sigma g complete s a -> in_sigma g complete t a.
  Proof.
    intros ST (l & E & I). unfold in_sigma, moore_sigma in *. destruct complete; [eauto|].
    pose (P := fun q a => exists l, N_sigma g q = Some l /\ In a l).
    assert (X : forall q, exists y, N_sigma g q = Some y /\ (fun q s => forall a, In a s <-> P q a) q y).
    { intros q. destruct (sigma_spec g q) as (y & EY & _). exists y. split; [exact EY|]. intros b. unfold P. split; [eauto|]. intros (l' & E' & I'). congruence. }
    destruct (omap_spec (N_sigma g) _ s X) as (ys & E1 & F1). destruct (omap_spec (N_sigma g) _ t X) as (zs & E2 & F2). rewrite E1 in E. rewrite E2. cbn [obind] in *. injection E as <-.
    eexists. split; [reflexivity|]. rewrite In_sof in *. rewrite (Forall2_concat P _ _ F1) in I. rewrite (Forall2_concat P _ _ F2). destruct I as (q & Iq & Pq). exists q. split; [apply ST, Iq|exact Pq].
  Qed.

  Variables (d d' : aut A) (m m' : list (list nat * nat)) (q0s q0s' : list nat).
  Hypothesis (I : MI g complete d m [] None []) (RO : rooted d m) (I0 : In (q0s, 0) m).
  Hypothesis (I' : MI g complete d' m' [] None []) (I0' : In (q0s', 0) m') (SQ : sameset q0s q0s').

  Lemma follow_edge s p s' p' a t q : In (s, p) m -> In (s', p') m' -> sameset s s' -> In (t, q) m -> A_delta d p a = Some q ->
    exists t' q', In (t', q') m' /\ sameset t t' /\ A_delta d' p' a = Some q'.
  Proof.
    intros Is Is' SS It D. destruct (m_sound _ _ _ _ _ _ _ I _ _ _ D) as (s1 & t1 & Is1 & It1 & ST & SG).
    rewrite (m_inj g complete _ _ _ _ _ _ _ _ I Is1 Is) in ST, SG. rewrite (m_inj g complete _ _ _ _ _ _ _ _ I It1 It) in ST.
    destruct (A_delta d' p' a) as [q'|] eqn:D'.
    - destruct (m_sound _ _ _ _ _ _ _ I' _ _ _ D') as (s2 & t2 & Is2 & It2 & ST2 & _). rewrite (m_inj g complete _ _ _ _ _ _ _ _ I' Is2 Is') in ST2.
      exists t2, q'. split; [exact It2|]. split; [|reflexivity]. intros x. rewrite (ST x), (ST2 x). split; intros (y & Iy & W); exists y; (split; [apply SS, Iy|exact W]).
    - exfalso. apply (m_done _ _ _ _ _ _ _ I' s' p' a Is'); [intros []|apply (sigma_ext s s' a SS SG)|discriminate|exact D'].
  Qed.
  Lemma same_subset : forall q s, In (s, q) m -> exists s' q', In (s', q') m' /\ sameset s s'.
  Proof.
    pose proof (m_num _ _ _ _ _ _ _ I) as NUM. induction q as [q IH] using lt_wf_ind. intros s Is. destruct (Nat.eq_dec q 0) as [->|Nq].
    - exists q0s', 0. split; [exact I0'|]. rewrite (m_inj g complete _ _ _ _ _ _ _ _ I Is I0). exact SQ.
    - destruct (m_index m NUM s q Is) as [L _]. destruct (RO q ltac:(lia)) as (p & a & Lp & D). pose proof (m_index' m NUM p ltac:(lia)) as Ip.
      destruct (IH p Lp _ Ip) as (sp & p' & Ip' & SP). destruct (follow_edge _ _ _ _ _ _ _ Ip Ip' SP Is D) as (t' & q' & It' & ST & _). exists t', q'. auto.
  Qed.
  Lemma subset_uniq s t p q : In (s, p) m' -> In (t, q) m' -> sameset s t -> p = q.
  Proof.
    pose proof (m_num _ _ _ _ _ _ _ I') as NUM. intros Is It ST. destruct (m_index m' NUM s p Is) as [Lp Np], (m_index m' NUM t q It) as [Lq Nq].
    apply (distinct_index (map fst m') (m_dist _ _ _ _ _ _ _ I')); [rewrite map_length; exact Lp|rewrite map_length; exact Lq|]. rewrite Np, Nq. exact ST.
  Qed.
End Moore.

Section Moore2.
  Context {A : Type} {EA : EqDec A}.
  Variables (g : nfa A) (complete : bool) (d d' : aut A) (m m' : list (list nat * nat)) (q0s q0s' : list nat).
  Hypothesis (I : MI g complete d m [] None []) (RO : rooted d m) (I0 : In (q0s, 0) m).
  Hypothesis (I' : MI g complete d' m' [] None []) (RO' : rooted d' m') (I0' : In (q0s', 0) m') (SQ : sameset q0s q0s').

  Lemma moore_renamed : renamed d d'.
  Proof.
    pose proof (m_num _ _ _ _ _ _ _ I) as NUM. pose proof (m_num _ _ _ _ _ _ _ I') as NUM'.
    assert (SQ' : sameset q0s' q0s) by (intros x; symmetry; apply SQ).
    pose (f := fun q => match find (fun k => seteqb (nth q (map fst m) []) (fst k)) m' with Some k => snd k | None => 0 end).
    assert (F : forall s q, In (s, q) m -> exists s', In (s', f q) m' /\ sameset s s').
    { intros s q Is. destruct (m_index m NUM s q Is) as [L N]. unfold f. rewrite N. destruct (find _ m') as [[k r]|] eqn:E.
      - apply find_some in E. cbn [fst snd] in *. exists k. split; [apply E|]. exact (proj1 (seteqb_spec s k) (proj2 E)).
      - destruct (same_subset g complete d d' m m' q0s q0s' I RO I0 I' I0' SQ q s Is) as (s' & q' & Is' & SS). exfalso. pose proof (find_none _ _ E _ Is') as X. cbn [fst] in X. rewrite (proj2 (seteqb_spec s s') SS) in X. discriminate. }
    assert (V : forall q, In q (A_vertices d) <-> exists s, In (s, q) m).
    { intros q. rewrite (m_V _ _ _ _ _ _ _ I), in_seq. split; [intros L; eexists; apply (m_index' m NUM q); lia|intros (s & Is); destruct (m_index m NUM s q Is); lia]. }
    assert (V' : forall q, In q (A_vertices d') <-> exists s, In (s, q) m').
    { intros q. rewrite (m_V _ _ _ _ _ _ _ I'), in_seq. split; [intros L; eexists; apply (m_index' m' NUM' q); lia|intros (s & Is); destruct (m_index m' NUM' s q Is); lia]. }
    assert (U := subset_uniq g complete d m I). assert (U' := subset_uniq g complete d' m' I').
    assert (TR : forall s t u : list nat, sameset s t -> sameset t u -> sameset s u) by (intros s t u H1 H2 x; rewrite (H1 x); apply H2).
    assert (SY : forall s t : list nat, sameset s t -> sameset t s) by (intros s t H1 x; symmetry; apply H1).
    exists f. split; [|split; [|split; [|split; [|split]]]].
    - intros q J. apply V in J. destruct J as (s & J). destruct (F s q J) as (s' & J' & _). apply V'. eauto.
    - intros q' J. apply V' in J. destruct J as (s' & J). destruct (same_subset g complete d' d m' m q0s' q0s I' RO' I0' I I0 SQ' q' s' J) as (s & q & Js & SS). exists q. split; [apply V; eauto|].
      destruct (F s q Js) as (s2 & J2 & S2). apply (U' s2 s' _ _ J2 J). apply (TR _ s); [apply SY, S2|apply SY, SS].
    - intros p q Jp Jq E. apply V in Jp, Jq. destruct Jp as (s & Jp), Jq as (t & Jq). destruct (F s p Jp) as (s' & Js & SS), (F t q Jq) as (t' & Jt & ST). rewrite E in Js.
      rewrite (m_inj g complete _ _ _ _ _ _ _ _ I' Js Jt) in SS. apply (U s t p q Jp Jq). apply (TR _ t'); [exact SS|apply SY, ST].
    - rewrite (m_q0 _ _ _ _ _ _ _ I), (m_q0 _ _ _ _ _ _ _ I'). cbn. f_equal. destruct (F q0s 0 I0) as (s' & Js & SS). apply (U' q0s' s' 0 (f 0) I0' Js). apply (TR _ q0s); [exact SQ'|exact SS].
    - intros q J. apply V in J. destruct J as (s & J). destruct (F s q J) as (s' & J' & SS). rewrite (m_fin _ _ _ _ _ _ _ I _ _ J), (m_fin _ _ _ _ _ _ _ I' _ _ J'). apply eq_iff_eq_true. rewrite !existsb_exists.
      split; intros (x & Ix & Fx); exists x; (split; [apply SS, Ix|exact Fx]).
    - intros q a J. apply V in J. destruct J as (s & J). destruct (F s q J) as (s' & J' & SS). destruct (A_delta d q a) as [r|] eqn:D; cbn [option_map].
      + destruct (m_sound _ _ _ _ _ _ _ I _ _ _ D) as (_ & t & _ & It & _ & _).
        destruct (follow_edge g complete d d' m m' I I' s q s' (f q) a t r J J' SS It D) as (t' & r' & It' & ST & D'). rewrite D'. f_equal. destruct (F t r It) as (t2 & J2 & S2). apply (U' t' t2 _ _ It' J2). apply (TR _ t); [apply SY, ST|exact S2].
      + destruct (A_delta d' (f q) a) as [r'|] eqn:D'; [|reflexivity]. exfalso. destruct (m_sound _ _ _ _ _ _ _ I' _ _ _ D') as (_ & t' & _ & It' & _ & _).
        destruct (follow_edge g complete d' d m' m I' I s' (f q) s q a t' r' J' J (SY _ _ SS) It' D') as (? & ? & _ & _ & D2). congruence.
  Qed.
End Moore2.

(** ** hopcroft_minimize: a quotient is known from its classes *)
Section Quotient.
  Context {A : Type} {EA : EqDec A}.
  Variables (V : list nat) (E : list (edge A)) (F : nat -> bool) (q0 : nat).
  Definition alike (E1 : list (edge A)) F1 q1 (E2 : list (edge A)) F2 q2 : Prop := forall w, (right E1 F1 q1 w <-> right E2 F2 q2 w) /\ (readable E1 q1 w <-> readable E2 q2 w).
  Hypothesis (V0 : In q0 V) (DET : forall q r r' a, In (Edge q r a) E -> In (Edge q r' a) E -> r = r') (CL : forall q r a, In (Edge q r a) E -> In q V /\ In r V).

  (** a quotient of the automaton *)
  Record quotient (d : dfa A) (cls : nat -> nat) : Prop := {
    u_wf : wf_dfa d;
    u_init : cls q0 = d_init d;
    u_in : forall q, In q V -> In (cls q) (d_states d);
    u_alike : forall q, In q V -> alike (d_trans d) (d_final d) (cls q) E F q;
    u_surj : forall i, In i (d_states d) -> exists q, In q V /\ cls q = i;
    u_same : forall p q, In p V -> In q V -> (cls p = cls q <-> alike E F p E F q) }.
  Lemma alike_sym E1 F1 q1 E2 F2 q2 : alike E1 F1 q1 E2 F2 q2 -> alike E2 F2 q2 E1 F1 q1.
  Proof. intros H w. destruct (H w). split; symmetry; assumption. Qed.
  Lemma alike_trans E1 F1 q1 E2 F2 q2 E3 F3 q3 : alike E1 F1 q1 E2 F2 q2 -> alike E2 F2 q2 E3 F3 q3 -> alike E1 F1 q1 E3 F3 q3.
  Proof. intros H K w. destruct (H w) as [H1 H2], (K w) as [K1 K2]. rewrite H1, H2, <- K1, <- K2. tauto. Qed.
  Lemma alike_step E1 F1 q1 E2 F2 q2 a r1 r2 : (forall q r r' a, In (Edge q r a) E1 -> In (Edge q r' a) E1 -> r = r') -> (forall q r r' a, In (Edge q r a) E2 -> In (Edge q r' a) E2 -> r = r') ->
    alike E1 F1 q1 E2 F2 q2 -> In (Edge q1 r1 a) E1 -> In (Edge q2 r2 a) E2 -> alike E1 F1 r1 E2 F2 r2.
  Proof.
    intros D1 D2 H J1 J2 w. destruct (H (a :: w)) as [H1 H2]. rewrite (right_cons E1 F1 q1 r1), (right_cons E2 F2 q2 r2) in H1 by eauto. rewrite (readable_cons E1 q1 r1), (readable_cons E2 q2 r2) in H2 by eauto. auto.
  Qed.
  Lemma alike_reads E1 F1 q1 E2 F2 q2 a r1 : alike E1 F1 q1 E2 F2 q2 -> In (Edge q1 r1 a) E1 -> exists r2, In (Edge q2 r2 a) E2.
  Proof. intros H J. destruct (H [a]) as [_ [H1 _]]. destruct H1 as [t P]; [exists r1; econstructor; [exact J|constructor]|]. inversion P as [|? ? r2 ? ? J2 _]; subst. eauto. Qed.
  Lemma alike_final E1 F1 q1 E2 F2 q2 : alike E1 F1 q1 E2 F2 q2 -> F1 q1 = F2 q2.
  Proof. intros H. destruct (H []) as [H1 _]. rewrite !right_nil in H1. apply eq_iff_eq_true, H1. Qed.

  Lemma quotient_edge d cls : quotient d cls -> forall q a r, In q V -> In (Edge (cls q) r a) (d_trans d) <-> exists r0, In (Edge q r0 a) E /\ cls r0 = r.
  Proof.
    intros U q a r Vq. pose proof (u_alike _ _ U q Vq) as AL. pose proof (wf_det _ (u_wf _ _ U)) as DD.
    assert (X : forall r r0, In (Edge (cls q) r a) (d_trans d) -> In (Edge q r0 a) E -> cls r0 = r).
    { intros r1 r0 J J0. destruct (CL _ _ _ J0) as [_ V1]. destruct (u_surj _ _ U r1) as (p & Vp & <-); [apply (wf_trans _ (u_wf _ _ U) _ _ _ J)|]. apply (u_same _ _ U); [exact V1|exact Vp|].
      apply alike_sym. apply (alike_trans _ _ _ (d_trans d) (d_final d) (cls p)); [apply alike_sym, (u_alike _ _ U p Vp)|]. apply (alike_step _ _ (cls q) _ _ q a _ _ DD DET AL J J0). }
    split.
    - intros J. destruct (alike_reads _ _ _ _ _ _ _ _ AL J) as [r0 J0]. exists r0. split; [exact J0|apply X; assumption].
    - intros (r0 & J0 & <-). destruct (alike_reads _ _ _ _ _ _ _ _ (alike_sym _ _ _ _ _ _ AL) J0) as [r1 J1]. rewrite (X r1 r0 J1 J0). exact J1.
  Qed.
  Lemma quotients d d' cls cls' : quotient d cls -> quotient d' cls' -> isomorphic d d'.
  Proof.
    intros U U'. pose (f := fun i => match find (fun q => cls q =? i) V with Some q => cls' q | None => 0 end).
    assert (FE : forall q, In q V -> f (cls q) = cls' q).
    { intros q Vq. unfold f. destruct (find _ V) as [p|] eqn:E1.
      - apply find_some in E1. destruct E1 as [Vp Ep]. apply Nat.eqb_eq in Ep. apply (u_same _ _ U'); [exact Vp|exact Vq|]. apply (u_same _ _ U); assumption.
      - exfalso. pose proof (find_none _ _ E1 q Vq) as X. cbn in X. rewrite Nat.eqb_refl in X. discriminate. }
    exists f. split; [|split; [|split; [|split; [|split]]]].
    - intros i Vi. destruct (u_surj _ _ U i Vi) as (q & Vq & <-). rewrite (FE q Vq). apply (u_in _ _ U' q Vq).
    - intros i Vi. destruct (u_surj _ _ U' i Vi) as (q & Vq & <-). exists (cls q). split; [apply (u_in _ _ U q Vq)|apply FE, Vq].
    - intros i j Vi Vj. destruct (u_surj _ _ U i Vi) as (p & Vp & <-), (u_surj _ _ U j Vj) as (q & Vq & <-). rewrite (FE p Vp), (FE q Vq). intros EQ. apply (u_same _ _ U); [assumption..|]. apply (u_same _ _ U'); assumption.
    - rewrite <- (u_init _ _ U), (FE q0 V0). apply (u_init _ _ U').
    - intros i Vi. destruct (u_surj _ _ U i Vi) as (q & Vq & <-). rewrite (FE q Vq). apply alike_final with (E1 := d_trans d') (E2 := d_trans d).
      apply (alike_trans _ _ _ E F q); [apply (u_alike _ _ U' q Vq)|apply alike_sym, (u_alike _ _ U q Vq)].
    - intros i j a Vi Vj. destruct (u_surj _ _ U i Vi) as (p & Vp & <-), (u_surj _ _ U j Vj) as (q & Vq & <-). rewrite (FE p Vp), (FE q Vq), (quotient_edge d cls U), (quotient_edge d' cls' U') by assumption.
      split; intros (r & J & EQ); exists r; (split; [exact J|]); destruct (CL _ _ _ J) as [_ Vr]; [apply (u_same _ _ U')|apply (u_same _ _ U)]; try assumption; [apply (u_same _ _ U)|apply (u_same _ _ U')]; assumption.
  Qed.
End Quotient.
