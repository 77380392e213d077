(** moore_determination with an IncidenceAutomaton builds the same automaton, by calls that keep in_edges right. *)
From Verif Require Import Graph GraphProofs Automaton AutomatonSpec AutomatonProofs AutomatonProofs2 Nfa NfaSpec NfaProofs NfaProofs2 Hopcroft MooreInc Base BaseProofs.

Section P.
  Context {A : Type} {EA : EqDec A}.
  (** what a disciplined program can build from IncidenceAutomaton() *)
  Definition hist (g : iaut A) : Prop := exists ops, disciplined (aa_init 0) ops /\ g = fst (runs IA_call (IA_init 0) ops).

  Lemma runs_snoc {S Op Out} (call : S -> Op -> S * Out) s ops op : fst (runs call s (ops ++ [op])) = fst (call (fst (runs call s ops)) op).
  Proof.
    revert s. induction ops as [|o ops IH]; intros s; cbn.
    - destruct (call s op); reflexivity.
    - destruct (call s o) as [s1 x]. specialize (IH s1). destruct (runs call s1 (ops ++ [op])), (runs call s1 ops). exact IH.
  Qed.
  Lemma disciplined_snoc ops op : forall s : aaut A, disciplined s ops -> ia_disciplined (fst (runs ia_step s ops)) op -> disciplined s (ops ++ [op]).
  Proof.
    induction ops as [|o ops IH]; intros s D X; cbn in *; [auto|]. destruct D as [D1 D2]. split; [exact D1|]. apply IH; [exact D2|].
    destruct (ia_step s o) as [s1 y]. cbn [fst] in *. destruct (runs ia_step s1 ops). exact X.
  Qed.
  Lemma hist_rep g : hist g -> exists s, iarep g s.
  Proof. intros (ops & D & ->). exists (fst (runs ia_step (aa_init 0) ops)). apply (iarep_runs ops _ _ (iarep_init 0) D). Qed.
  Lemma hist_step g op : hist g -> (forall s, iarep g s -> ia_disciplined s op) -> hist (fst (IA_call g op)).
  Proof.
    intros (ops & D & ->) H. exists (ops ++ [op]). split; [|symmetry; apply runs_snoc]. apply disciplined_snoc; [exact D|]. apply H. apply (iarep_runs ops _ _ (iarep_init 0) D).
  Qed.
  Lemma hist_init : hist (IA_init 0).
  Proof. exists []. split; [exact I|reflexivity]. Qed.

  Variables (g : nfa A) (complete : bool).

  Lemma idfa_add_state_spec d m qs : hist d -> exists d', idfa_add_state g d m qs = (d', snd (fst (dfa_add_state g (ia_base d) m qs)), snd (dfa_add_state g (ia_base d) m qs)) /\
    ia_base d' = fst (fst (dfa_add_state g (ia_base d) m qs)) /\ hist d'.
  Proof.
    intros H. unfold idfa_add_state, dfa_add_state, IA_add_vertex. destruct (A_add_vertex (ia_base d)) as [b o] eqn:E.
    pose proof (hist_step d AAddVertex H (fun _ _ => I)) as H1. cbn [IA_call] in H1. unfold IA_add_vertex in H1. rewrite E in H1. destruct o as [q|e]; cbn [fst] in H1.
    - eexists. split; [reflexivity|]. destruct (existsb (N_is_final g) qs); cbn [fst snd]; (split; [reflexivity|]); [|exact H1].
      apply (hist_step _ (ASetFinal q true) H1 (fun _ _ => I)).
    - unfold A_add_vertex in E. discriminate.
  Qed.

  Lemma iadd_trans d m todo qs q a rest t r : hist d -> MI g complete (ia_base d) m todo (Some qs) (a :: rest) -> In (qs, q) m -> In (t, r) m ->
    forall b, A_add_edge (ia_base d) q r a = (b, Ok (Some (Edge q r a), true)) ->
    exists d' , IA_add_edge d q r a = (d', Ok (Some (Edge q r a), true)) /\ ia_base d' = b /\ hist d'.
  Proof.
    intros H M Iq Ir b E. assert (VV : forall s x, In (s, x) m -> In x (A_vertices (ia_base d))) by (intros s x X; rewrite (m_V _ _ _ _ _ _ _ M); apply in_seq; pose proof (m_lt g complete _ _ _ _ _ _ _ M X); lia).
    assert (DN : A_delta (ia_base d) q a = None) by (eapply (m_not _ _ _ _ _ _ _ M); [exact Iq|right; split; [reflexivity|left; reflexivity]]).
    pose proof (hist_step d (AAddEdge q r a) H) as H1. cbn [IA_call] in H1. unfold IA_add_edge in *. rewrite E in *.
    destruct (hist_rep d H) as (s & R). destruct (dget (ia_in d) r) as [r_in|] eqn:Er.
    - eexists. split; [reflexivity|]. split; [reflexivity|]. apply H1. clear s R. intros s R. cbn. rewrite <- !(obs_vertices _ _ (proj1 R)). split; [apply (VV _ _ Iq)|]. split; [apply (VV _ _ Ir)|].
      rewrite <- (obs_delta _ _ (proj1 R)), DN. discriminate.
    - exfalso. apply dget_None in Er. apply Er. rewrite (proj1 (proj2 R)), <- (obs_vertices _ _ (proj1 R)). apply (VV _ _ Ir).
  Qed.

  Lemma isymbols qs q : forall syms d m todo, hist d -> MI g complete (ia_base d) m todo (Some qs) syms -> NoDup syms -> In (qs, q) m -> (forall a, In a syms -> in_sigma g complete qs a) ->
    forall d' m' todo', moore_symbols g q qs syms (ia_base d) m todo = Some (d', m', todo', Ok tt) ->
    exists di, imoore_symbols g q qs syms d m todo = Some (di, m', todo', Ok tt) /\ ia_base di = d' /\ hist di.
  Proof.
    induction syms as [|a syms IH]; intros d m todo H I ND Iq HS d' m' todo' E; cbn [moore_symbols imoore_symbols] in *.
    - injection E as <- <- <-. eauto.
    - inversion ND as [|? ? Na ND']; subst. destruct (step_spec g qs a) as (rs & ES & Hs). rewrite ES in *. cbn [obind] in *. change (is_step g qs a rs) in Hs.
      assert (SG : in_sigma g complete qs a) by (apply HS; left; reflexivity).
      assert (HS' : forall b, In b syms -> in_sigma g complete qs b) by (intros b Ib; apply HS; right; exact Ib).
      destruct (fget m rs) as [r|] eqn:EG.
      + pose proof EG as EG'. apply fget_In in EG. destruct EG as (k & Ik & K).
        assert (Hk : is_step g qs a k) by (intros t; rewrite (proj1 (seteqb_spec k rs) K); apply Hs).
        destruct (add_trans g complete (ia_base d) m todo qs q a syms k r I Na Iq Ik Hk SG) as (b & Eb & I' & _).
        rewrite Eb in E. destruct (iadd_trans d m todo qs q a syms k r H I Iq Ik b Eb) as (d1 & -> & B1 & H1). rewrite <- B1 in E, I'. apply (IH d1 m todo H1 I' ND' Iq HS' _ _ _ E).
      + destruct (add_state g complete (ia_base d) m todo (Some qs) (a :: syms) rs I (good_step _ _ _ _ Hs) EG) as (d1 & E1 & I1 & D1).
        { intros X. injection X as X. subst rs. apply (fget_key _ _ _ (m_dist _ _ _ _ _ _ _ I)) in Iq. congruence. }
        destruct (idfa_add_state_spec d m rs H) as (di & Ei & Bi & Hi). rewrite E1 in *. cbn [fst snd] in *. rewrite Ei. rewrite <- Bi in *.
        assert (Iq' : In (qs, q) (m ++ [(rs, length m)])) by (apply in_app_iff; left; exact Iq).
        assert (Ir' : In (rs, length m) (m ++ [(rs, length m)])) by (apply in_app_iff; right; left; reflexivity).
        destruct (add_trans g complete (ia_base di) _ _ qs q a syms rs (length m) I1 Na Iq' Ir' Hs SG) as (b & Eb & I' & _). rewrite Eb in E.
        destruct (iadd_trans di _ _ qs q a syms rs (length m) Hi I1 Iq' Ir' b Eb) as (d2 & -> & B2 & H2). rewrite <- B2 in E, I'. apply (IH d2 _ _ H2 I' ND' Iq' HS' _ _ _ E).
  Qed.

  Variable opop : set_order (list nat).
  Variable osym : set_order A.
  Hypothesis OP : valid_order opop.
  Hypothesis OS : valid_order osym.

  Lemma iloop : forall fuel n d m todo, hist d -> MI g complete (ia_base d) m todo None [] ->
    forall d', moore_loop g complete opop osym fuel n (ia_base d) m todo = Some (d', Ok tt) ->
    exists di, imoore_loop g complete opop osym fuel n d m todo = Some (di, Ok tt) /\ ia_base di = d' /\ hist di.
  Proof.
    induction fuel as [|fuel IH]; intros n d m todo H I d' E; [discriminate E|]. cbn [moore_loop imoore_loop] in *. pose proof (OP n todo) as P. destruct (opop n todo) as [|qs todo'] eqn:EO.
    - injection E as <-. eauto.
    - assert (It : In qs todo) by (eapply Permutation_in; [exact P|left; reflexivity]).
      destruct (m_todo _ _ _ _ _ _ _ I qs It) as [Ik _]. apply in_map_iff in Ik. destruct Ik as ([qs' q] & E' & Iq). cbn in E'. subst qs'.
      rewrite (fget_key _ _ _ (m_dist _ _ _ _ _ _ _ I) Iq) in *.
      destruct (sigma_total g complete qs) as (sigma & ES & NS & _ & _). rewrite ES in *. cbn [obind] in *.
      pose proof (OS n sigma) as PS.
      assert (NDt : NoDup (qs :: todo')) by (eapply Permutation_NoDup; [symmetry; exact P|apply (m_nd _ _ _ _ _ _ _ I)]).
      assert (IT : forall s, In s todo <-> s = qs \/ In s todo').
      { intros s. split; intros X.
        - eapply Permutation_in in X; [|symmetry; exact P]. destruct X; auto.
        - eapply Permutation_in; [exact P|]. destruct X as [->|X]; [left; reflexivity|right; exact X]. }
      assert (MM : MI g complete (ia_base d) m todo' (Some qs) (osym n sigma)).
      { inversion NDt as [|? ? Nq NDt']; subst. destruct I as [I1 I2 I3 I4 I5 I6 I7 I8 I9 I10 I11 I12 I13]. constructor; try assumption.
        -- intros s Is. split; [apply I9; apply IT; auto|]. congruence.
        -- intros s p a Is Nt SG HR. destruct (eq_dec s qs) as [->|Ns].
           ++ exfalso. apply (HR eq_refl). destruct SG as (s' & E1 & Is'). rewrite ES in E1. injection E1 as <-.
              eapply Permutation_in; [symmetry; exact PS|exact Is'].
           ++ eapply I12; [exact Is| |exact SG|discriminate]. intros Y. apply IT in Y. tauto.
        -- intros s p a Is [Y|[Y _]].
           ++ eapply I13; [exact Is|]. left. apply IT. auto.
           ++ injection Y as <-. eapply I13; [exact Is|]. left. exact It. }
      assert (NDs : NoDup (osym n sigma)) by (eapply Permutation_NoDup; [symmetry; exact PS|exact NS]).
      assert (SG : forall a, In a (osym n sigma) -> in_sigma g complete qs a) by (intros a Ia; exists sigma; split; [exact ES|]; eapply Permutation_in; [exact PS|exact Ia]).
      destruct (symbols_spec g complete qs q (osym n sigma) (ia_base d) m todo' MM NDs Iq SG) as (d1 & m1 & todo1 & k & E1 & I1 & _).
      destruct (isymbols qs q _ d m todo' H MM NDs Iq SG _ _ _ E1) as (di & Ei & Bi & Hi). rewrite E1 in E. rewrite Ei. cbn [obind] in *. rewrite <- Bi in E, I1. apply (IH _ _ _ _ Hi); [|exact E].
      destruct I1 as [J1 J2 J3 J4 J5 J6 J7 J8 J9 J10 J11 J12 J13]. constructor; try assumption.
      ++ intros s Is. split; [apply J9; exact Is|discriminate].
      ++ intros s p a Is Nt SG' _. eapply J12; [exact Is|exact Nt|exact SG'|intros _ []].
      ++ intros s p a Is [Z|[Z _]]; [|discriminate]. eapply J13; [exact Is|]. left. exact Z.
  Qed.

  Lemma imoore fuel d : moore_determination g complete opop osym fuel = Some (d, Ok tt) ->
    exists di, imoore_determination g complete opop osym fuel = Some (di, Ok tt) /\ ia_base di = d /\ hist di.
  Proof.
    unfold moore_determination, imoore_determination. destruct (delta_epsilon_spec g (nf_init g)) as (q0s & EQ & H0). rewrite EQ. cbn [obind].
    destruct (idfa_add_state_spec (IA_init 0) [] q0s hist_init) as (d0 & -> & B0 & Hd). change (ia_base (IA_init 0)) with (A_init 0 : aut A) in *.
    destruct (dfa_add_state g (A_init 0) [] q0s) as [[d1 m1] o] eqn:E1. cbn [fst snd] in *. subst d1. destruct o as [u|e]; [|intros X; discriminate X].
    intros E. apply (iloop fuel 0 d0 m1 [q0s] Hd); [|exact E].
    assert (X : MI g complete (A_init 0) [] [] None []).
    { constructor; try reflexivity; try constructor; try (intros; contradiction). - cbn. intros q a r X. discriminate X. }
    destruct (add_state g complete _ _ _ _ _ q0s X) as (d2 & E2 & I2 & _); [apply good_init, H0|reflexivity|discriminate|]. rewrite E1 in E2. injection E2 as -> -> _. exact I2.
  Qed.
End P.
