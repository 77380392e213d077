(** Theorem C96: hopcroft_minimize after moore_determination. *)
From Verif Require Import Graph GraphProofs Automaton AutomatonSpec AutomatonProofs AutomatonProofs2 Nfa NfaSpec NfaProofs NfaProofs2 TNfa TMoore RevuzSpec Hopcroft HopcroftProofs THopcroft MinSpec MinProofs TMin MooreInc MooreIncProofs Base BaseProofs.
#[local] Arguments dkeys : simpl never.

Section C96.
  Context {A : Type} {EA : EqDec A}.
  Variables (opop : set_order (list nat)) (osym : set_order A).
  Hypothesis (OP : valid_order opop) (OS : valid_order osym).
  Variables (ord_w : set_order (list nat)) (ord_p : nat -> set_order (list nat)) (ord_a : set_order A) (ord_l : set_order (list nat)) (ord_q : list nat -> list nat).
  Hypothesis (OW : valid_order ord_w) (OPP : forall n, valid_order (ord_p n)) (OA : valid_order ord_a) (OL : valid_order ord_l) (OQ : forall B, Permutation (ord_q B) B).

  (** the words that some accepting run spells *)
  Definition spelled (T : nat -> A -> nat -> Prop) (eps : A) (I : list nat) (F : nat -> bool) (w : list A) : Prop :=
    exists q t, In q I /\ nrun T eps q w t /\ F t = true.
  (** a word on a given alphabet *)
  Definition over (S : list A) (w : list A) : Prop := forall a, In a w -> In a S.

  Lemma nrun_over (g : nfa A) q w t : nrun (ntrans g) (nf_eps g) q w t -> over (N_alphabet g) w.
  Proof.
    induction 1 as [q|q r t w X R IH|q a r t w N X R IH]; [intros a []|exact IH|]. intros b [<-|J]; [apply (alphabet_spec g _ _ _ N X)|apply IH, J].
  Qed.
  Lemma alphabet_eps (g : nfa A) w : over (N_alphabet g) w -> ~ In (nf_eps g) w.
  Proof. intros O I. apply (alphabet_noeps g _ (O _ I)). reflexivity. Qed.
  Lemma complete_ext (S S' : list A) (d : dfa A) : (forall a, In a S <-> In a S') -> complete_over S d -> complete_over S' d.
  Proof. intros H [C1 C2]. split; [intros q r a I; apply H, (C1 _ _ _ I)|intros q a V I; apply (C2 q a V), H, I]. Qed.

  (** what the determination gives, as a deterministic automaton *)
  Lemma determination (g : nfa A) fuel : 2 ^ length (universe g) + 1 <= fuel ->
    exists d n ops, imoore_determination g true opop osym fuel = Some (d, Ok tt) /\ disciplined (aa_init n) ops /\ d = fst (runs IA_call (IA_init n) ops) /\
      A_initial (ia_base d) = Some 0 /\ In 0 (IA_vertices d) /\ accessible (ia_dfa d 0) /\ complete_over (A_alphabet (ia_base d)) (ia_dfa d 0) /\
      (forall a, In a (A_alphabet (ia_base d)) <-> In a (N_alphabet g)) /\ length (IA_vertices d) < fuel /\
      (forall w, language (ia_dfa d 0) w <-> spelled (ntrans g) (nf_eps g) (nf_init g) (nf_final g) w) /\
      (forall w, over (N_alphabet g) w -> exists q, In q (IA_vertices d) /\ path (IA_edges d) 0 w q).
  Proof.
    intros L. destruct (moore_run g true opop osym OP OS fuel L) as (b & E & HL & HC & HV & m & q0s & I & RO & I0 & _).
    destruct (imoore g true opop osym OP OS fuel b E) as (d & Ed & <- & (ops & D & Hd)). exists d, 0, ops.
    destruct (iarep_runs ops _ _ (iarep_init 0) D) as [R _]. rewrite <- Hd in R. set (s := fst (runs ia_step (aa_init 0) ops)) in R. clearbody s.
    assert (Q0 : A_initial (ia_base d) = Some 0) by apply (m_q0 _ _ _ _ _ _ _ I).
    assert (VV : forall q, In q (IA_vertices d) <-> q < length m) by (intros q; unfold IA_vertices; rewrite (m_V _ _ _ _ _ _ _ I), in_seq; lia).
    assert (V0 : In 0 (IA_vertices d)) by (apply VV, (m_lt g true _ _ _ _ _ _ _ I I0)).
    assert (DE : forall q a r, A_delta (ia_base d) q a = Some r <-> In (Edge q r a) (IA_edges d)) by (intros q a r; apply (obs_delta_edges _ _ (proj1 R))).
    assert (AL1 : forall a, In a (A_alphabet (ia_base d)) -> In a (N_alphabet g)).
    { intros a J. apply (obs_alphabet _ _ (proj1 R)) in J. destruct J as (p & r & J). apply (Permutation_in _ (Permutation_sym (obs_edges _ _ (proj1 R)))), DE in J.
      destruct (m_sound _ _ _ _ _ _ _ I _ _ _ J) as (s1 & t1 & _ & _ & _ & (sg & ES & Is)). cbn in ES. injection ES as <-. exact Is. }
    assert (STEP : forall q a, In q (IA_vertices d) -> In a (N_alphabet g) -> exists r, In (Edge q r a) (IA_edges d)).
    { intros q a Vq Ia. destruct (A_delta (ia_base d) q a) as [r|] eqn:Dq; [exists r; apply DE, Dq|]. destruct (HC q a eq_refl Vq Ia Dq). }
    assert (AL : forall a, In a (A_alphabet (ia_base d)) <-> In a (N_alphabet g)).
    { intros a. split; [apply AL1|]. intros J. destruct (STEP 0 a V0 J) as [r X]. apply (obs_alphabet _ _ (proj1 R)). exists 0, r. apply (Permutation_in _ (obs_edges _ _ (proj1 R))), X. }
    assert (OV : forall w q r, path (IA_edges d) q w r -> over (N_alphabet g) w).
    { intros w q r P. induction P as [|q a r w t X P IH]; [intros a []|]. intros b [<-|J]; [|apply IH, J]. apply AL1, (obs_alphabet _ _ (proj1 R)). exists q, r. apply (Permutation_in _ (obs_edges _ _ (proj1 R))), X. }
    split; [exact Ed|]. split; [exact D|]. split; [exact Hd|]. split; [exact Q0|]. split; [exact V0|]. split; [|split; [|split; [exact AL|split; [|split]]]].
    - intros q Vq. cbn in Vq. apply VV in Vq. revert Vq. induction q as [q IH] using lt_wf_ind. intros Lq. cbn [ia_dfa d_trans d_init]. destruct (Nat.eq_dec q 0) as [->|Nq]; [exists []; constructor|].
      destruct (RO q ltac:(lia)) as (p & a & Lp & Dp). destruct (IH p Lp ltac:(lia)) as (w & W). exists (w ++ [a]). apply (p_app _ _ _ p); [exact W|]. econstructor; [apply DE, Dp|constructor].
    - split; cbn [ia_dfa d_trans d_states].
      + intros q r a J. apply (obs_alphabet _ _ (proj1 R)). exists q, r. apply (Permutation_in _ (obs_edges _ _ (proj1 R))), J.
      + intros q a Vq J. apply (STEP q a Vq), AL, J.
    - unfold IA_vertices. rewrite (m_V _ _ _ _ _ _ _ I), seq_length. pose proof (m_bound g true (ia_base d) m [] None [] I). lia.
    - intros w. rewrite <- (accepts_language d s 0 w R Q0). split.
      + intros AC. apply HL; [|exact AC]. apply alphabet_eps. apply (accepts_path _ _ (proj1 R)) in AC. destruct AC as (q & r & _ & P & _). apply (OV _ _ _ P).
      + intros (q & t & X & P & F). apply HL; [apply alphabet_eps, (nrun_over _ _ _ _ P)|]. exists q, t. auto.
    - intros w. revert V0. generalize 0 as q. induction w as [|a w IH]; intros q Vq O; [exists q; split; [exact Vq|constructor]|].
      destruct (STEP q a Vq (O a (or_introl eq_refl))) as [r X]. destruct (IH r) as (t & Vt & P); [apply (HV _ _ _ (proj2 (DE _ _ _) X))|intros b J; apply O; right; exact J|].
      exists t. split; [exact Vt|]. econstructor; eassumption.
  Qed.

  Lemma minimal_of (g : nfa A) fuel : let S := N_alphabet g in let L := spelled (ntrans g) (nf_eps g) (nf_init g) (nf_final g) in
    2 ^ length (universe g) + 1 <= fuel -> (exists w, L w) -> (exists w, over S w /\ ~ L w) ->
    exists d d' q, imoore_determination g true opop osym fuel = Some (d, Ok tt) /\ hopcroft_minimize fuel d ord_w ord_p ord_a ord_l ord_q = Some (d', Ok tt) /\
      A_initial (ia_base d') = Some q /\ wf_dfa (ia_dfa d' q) /\ complete_over S (ia_dfa d' q) /\ (forall w, A_accepts (ia_base d') w = true <-> L w) /\
      forall m, wf_dfa m -> complete_over S m -> (forall w, language m w <-> L w) ->
        length (IA_vertices d') <= length (d_states m) /\ (length (IA_vertices d') = length (d_states m) -> isomorphic (ia_dfa d' q) m).
  Proof.
    intros S L LF (w1 & H1) (w2 & O2 & H2). destruct (determination g fuel LF) as (d & n & ops & Ed & D & Hd & Q0 & V0 & AC & CO & AL & LV & HL & HP). fold S in AL, HP. fold L in HL.
    rewrite Hd in *. clear d Hd. set (d := fst (runs IA_call (IA_init n) ops)) in *.
    destruct (iarep_runs ops _ _ (iarep_init n) D) as [R _]. fold d in R. pose proof (iarep_wf d _ 0 R V0) as W.
    assert (HF : exists q, In q (IA_vertices d) /\ A_is_final (ia_base d) q = true).
    { apply HL in H1. destruct H1 as (t & P & F). exists t. split; [apply (p_in _ W _ _ _ P), V0|exact F]. }
    assert (HN : exists q, In q (IA_vertices d) /\ A_is_final (ia_base d) q = false).
    { destruct (HP w2 O2) as (t & Vt & P). exists t. split; [exact Vt|]. destruct (A_is_final (ia_base d) t) eqn:F; [|reflexivity]. destruct H2. apply HL. exists t. auto. }
    destruct (C79_hopcroft_complete_partial ord_w ord_p ord_a ord_l ord_q OW OPP OA OL OQ n ops fuel 0 D Q0 V0 AC CO HF HN) as (d' & q & E' & Q' & W' & C' & L' & MI'); fold d.
    - lia.
    - fold d in E', C', L', MI'.
      assert (AA : forall w, A_accepts (ia_base d') w = A_accepts (ia_base d) w).
      { destruct (C47_hopcroft_minimize_partial ord_w ord_p ord_a ord_l ord_q OW OPP OA OL OQ n ops fuel D HF HN (ex_intro _ 0 (conj V0 Q0)) ltac:(fold d; lia)) as (d2 & cls & E2 & _ & AA & _). fold d in E2, AA. rewrite E' in E2. injection E2 as <-. exact AA. }
      exists d, d', q. split; [exact Ed|]. split; [exact E'|]. split; [exact Q'|]. split; [exact W'|]. split; [apply (complete_ext _ _ _ AL), C'|].
      split; [intros w; rewrite AA, (accepts_language d _ 0 w R Q0); apply HL|]. intros m Wm Cm Lm. apply MI'; [exact Wm|apply (complete_ext S); [intros a; symmetry; apply AL|exact Cm]|]. intros w. rewrite Lm. symmetry. apply HL.
  Qed.
  Lemma crash_of (g : nfa A) fuel : let S := N_alphabet g in let L := spelled (ntrans g) (nf_eps g) (nf_init g) (nf_final g) in
    2 ^ length (universe g) + 1 <= fuel -> S <> [] -> (forall w, ~ L w) \/ (forall w, over S w -> L w) ->
    exists d, imoore_determination g true opop osym fuel = Some (d, Ok tt) /\ hopcroft_minimize fuel d ord_w ord_p ord_a ord_l ord_q = Some (d, Raise TypeError).
  Proof.
    intros S L LF NS HH. destruct (determination g fuel LF) as (d & n & ops & Ed & D & Hd & Q0 & V0 & AC & CO & AL & LV & HL & HP). fold S in AL, HP. fold L in HL.
    rewrite Hd in *. clear d Hd. set (d := fst (runs IA_call (IA_init n) ops)) in *.
    destruct (iarep_runs ops _ _ (iarep_init n) D) as [R _]. fold d in R. pose proof (iarep_wf d _ 0 R V0) as W.
    exists d. split; [exact Ed|]. apply (C47_crash ord_w ord_p ord_a ord_l ord_q OW OPP OA n ops fuel D); fold d.
    - destruct S as [|a S]; [congruence|]. destruct (proj2 CO 0 a V0) as [r X]; [apply AL; left; reflexivity|]. cbn in X. intros Z. rewrite Z in X. destruct X.
    - exact LV.
    - assert (X : forall q, In q (IA_vertices d) -> exists w, over S w /\ path (IA_edges d) 0 w q).
      { intros q Vq. destruct (AC q Vq) as [w P]. exists w. split; [|exact P]. cbn in P. pose proof (proj1 CO) as C1. cbn in C1. clear - P C1 AL. intros b J. apply AL. induction P as [|q a r w t Y P IH]; [destruct J|]. destruct J as [<-|J]; [|apply IH, J]. apply (C1 _ _ _ Y). }
      destruct HH as [HH|HH]; [right|left]; intros q Vq; destruct (X q Vq) as (w & O & P).
      + destruct (A_is_final (ia_base d) q) eqn:F; [|reflexivity]. destruct (HH w). apply HL. exists q. auto.
      + specialize (HH w O). apply HL in HH. destruct HH as (t & P' & F). cbn in P', F. rewrite (p_det _ W _ _ _ _ P P'). exact F.
  Qed.

  Lemma same_language n ini (eps : A) ops w : let g := built n ini eps ops in let s := described n ini ops in
    spelled (ntrans g) (nf_eps g) (nf_init g) (nf_final g) w <-> spelled (steps s) eps (an_I s) (an_F s) w.
  Proof.
    intros g s. pose proof (N_runs_rep n ini eps ops) as R. fold (built n ini eps ops) in R. fold (described n ini ops) in R. fold g s in R.
    unfold spelled. rewrite (r_I _ _ _ R), (r_eps _ _ _ R). split; intros (q & t & I & X & F); exists q, t; (split; [exact I|]); (split; [|rewrite (r_F _ _ _ R) in *; exact F]);
      (eapply nrun_ext; [|exact X]); intros p a r Y; apply (r_T _ _ _ R); exact Y.
  Qed.

  (** C96. For any NFA that one can build: let S be its alphabet and L the words that its accepting runs spell. When some
      word is in L and some word on S is not, moore_determination followed by hopcroft_minimize gives the smallest
      automaton of L among those where every state reads every symbol of S; any other one with as many states is the same
      up to the names of the states. *)
  Theorem C96_minimal_partial n ini (eps : A) ops fuel :
    let g := built n ini eps ops in
    let s := described n ini ops in
    let S := N_alphabet g in
    let L := spelled (steps s) eps (an_I s) (an_F s) in
    2 ^ (length (nf_init g) + N_num_edges g) + 1 <= fuel -> (exists w, L w) -> (exists w, over S w /\ ~ L w) ->
    exists d d' q, imoore_determination g true opop osym fuel = Some (d, Ok tt) /\ hopcroft_minimize fuel d ord_w ord_p ord_a ord_l ord_q = Some (d', Ok tt) /\
      A_initial (ia_base d') = Some q /\ wf_dfa (ia_dfa d' q) /\ complete_over S (ia_dfa d' q) /\ (forall w, A_accepts (ia_base d') w = true <-> L w) /\
      forall m, wf_dfa m -> complete_over S m -> (forall w, language m w <-> L w) ->
        length (IA_vertices d') <= length (d_states m) /\ (length (IA_vertices d') = length (d_states m) -> isomorphic (ia_dfa d' q) m).
  Proof using OP OS OW OPP OA OL OQ.
    intros g s S L LF H1 H2. pose proof (same_language n ini eps ops) as SL. fold g s in SL. fold L in SL.
    destruct (minimal_of g fuel) as (d & d' & q & E & E' & Q & W & C & HL & M).
    - pose proof (same_fuel g). assert (2 ^ length (universe g) <= 2 ^ (length (nf_init g) + N_num_edges g)) by (apply Nat.pow_le_mono_r; lia). lia.
    - destruct H1 as [w X]. exists w. apply SL, X.
    - destruct H2 as (w & O & X). exists w. split; [exact O|]. intros Y. apply X, SL, Y.
    - exists d, d', q. split; [exact E|]. split; [exact E'|]. split; [exact Q|]. split; [exact W|]. split; [exact C|]. split.
      + intros w. rewrite HL. apply SL.
      + intros m Wm Cm Lm. apply M; [exact Wm|exact Cm|]. intros w. rewrite Lm. symmetry. apply SL.
  Qed.
  (** It raises TypeError when L is empty, and when L is the set of all words on S (unless S is empty). *)
  Theorem C96_crash n ini (eps : A) ops fuel :
    let g := built n ini eps ops in
    let s := described n ini ops in
    let S := N_alphabet g in
    let L := spelled (steps s) eps (an_I s) (an_F s) in
    2 ^ (length (nf_init g) + N_num_edges g) + 1 <= fuel -> S <> [] -> (forall w, ~ L w) \/ (forall w, over S w -> L w) ->
    exists d, imoore_determination g true opop osym fuel = Some (d, Ok tt) /\ hopcroft_minimize fuel d ord_w ord_p ord_a ord_l ord_q = Some (d, Raise TypeError).
  Proof using OP OS OW OPP OA.
    intros g s S L LF NS HH. pose proof (same_language n ini eps ops) as SL. fold g s in SL. fold L in SL. apply crash_of; [|exact NS|].
    - pose proof (same_fuel g). assert (2 ^ length (universe g) <= 2 ^ (length (nf_init g) + N_num_edges g)) by (apply Nat.pow_le_mono_r; lia). lia.
    - destruct HH as [HH|HH]; [left|right]; intros w; [intros X; apply (HH w), SL, X|intros O; apply SL, HH, O].
  Qed.
End C96.

(** The NFA of C84's example (the words on 5, 6 whose last letter but one is 5): four states. *)
Example C96_example_nfa :
  match imoore_determination (built 4 [0] 9 ex_moore) true (fun _ l => l) (fun _ l => rev l) 300 with
  | Some (d, Ok _) => match hopcroft_minimize 300 d ido (fun _ => ido) ido ido (fun B => B) with Some (d', Ok _) => length (IA_vertices d') = 4 | _ => False end
  | _ => False
  end /\ spelled (steps (described 4 [0] ex_moore)) 9 [0] (an_F (described 4 [0] ex_moore)) [5; 6] /\
  ~ spelled (steps (described 4 [0] ex_moore)) 9 [0] (an_F (described 4 [0] ex_moore)) [].
Proof.
  split; [vm_compute; reflexivity|]. split.
  - exists 0, 3. split; [left; reflexivity|]. split; [|reflexivity]. assert (S1 : forall q a r, In (q, a, r) (an_T (described 4 [0] ex_moore)) -> steps (described 4 [0] ex_moore) q a r) by auto.
    apply (nrun_eps _ _ _ 1); [apply S1; vm_compute; auto|]. apply (nrun_cons _ _ _ _ 2); [discriminate|apply S1; vm_compute; auto 10|]. apply (nrun_cons _ _ _ _ 3); [discriminate|apply S1; vm_compute; auto 10|]. constructor.
  - intros (q & t & [<-|[]] & R & F). assert (X : t = 0 \/ t = 1); [|destruct X as [-> | ->]; discriminate F]. clear F.
    inversion R as [|? ? ? ? S1 R1|]; subst; [auto|]. unfold steps in S1. vm_compute in S1. repeat (destruct S1 as [S1|S1]; [try discriminate S1|]); [|destruct S1]. injection S1 as <-. right.
    inversion R1 as [|? ? ? ? S2 R2|]; subst; [reflexivity|]. unfold steps in S2. vm_compute in S2. repeat (destruct S2 as [S2|S2]; [try discriminate S2|]). destruct S2.
Qed.
