(** Property C111: what [clear] leaves of an Automaton and of an Nfa (graph.py:199-206). *)
From Verif Require Import Base BaseProofs Graph GraphProofs Automaton AutomatonSpec AutomatonProofs AutomatonProofs2 AutomatonProofs3
  Nfa NfaSpec NfaProofs NfaProofs2 TAutomaton TNfa.

(** As stated the property is false: a cleared automaton, which has no vertex, may accept the empty word,
    and a state created afterwards may be final although no call made it so. *)
Theorem C111_cleared_automaton_is_new_refuted : exists (ops ops' : list (aop nat)),
  let g := fst (runs A_call (A_init 2) (ops ++ [AClear])) in
  A_vertices g = [] /\ A_accepts g [] = true /\ A_accepts (A_init 0) [] = false /\
  let h := fst (runs A_call (A_init 2) (ops ++ AClear :: ops')) in
  let h' := fst (runs A_call (A_init 0) ops') in
  A_vertices h = A_vertices h' /\ A_accepts h [7] = true /\ A_accepts h' [7] = false.
Proof.
  exists [ASetFinal 0 true; ASetFinal 1 true], [AAddVertex; AAddVertex; AAddEdge 0 1 7]. vm_compute. repeat split.
Qed.
Theorem C111_cleared_nfa_is_new_refuted : exists (ops ops' : list (nfop nat)),
  let g := built 2 [] 9 (ops ++ [FClear]) in
  N_vertices g = [] /\ N_accepts g [] = Some true /\ N_accepts (built 0 [] 9 []) [] = Some false /\
  let h := built 2 [] 9 (ops ++ FClear :: ops') in
  let h' := built 0 [] 9 ops' in
  N_vertices h = N_vertices h' /\ N_accepts h [7] = Some true /\ N_accepts h' [7] = Some false.
Proof.
  exists [FSetFinal 0 true; FSetFinal 1 true], [FAddVertex; FAddVertex; FAddEdge 0 1 7]. vm_compute. repeat split.
Qed.

(** The calls that [clear] does not undo. *)
Definition keptA {A} (op : aop A) : bool := match op with ASetInitial _ _ | ASetFinal _ _ => true | _ => false end.
Definition keptN {A} (op : nfop A) : bool :=
  match op with FSetInitial _ _ | FSetInitials _ | FSetFinal _ _ => true | _ => false end.

Section T.
  Context {A : Type} {EA : EqDec A}.

  (** What the specification keeps, and the states it goes through. *)
  Lemma runs_app {S Op Out} (call : S -> Op -> S * Out) l l' : forall s,
    runs call s (l ++ l') = (fst (runs call (fst (runs call s l)) l'), snd (runs call s l) ++ snd (runs call (fst (runs call s l)) l')).
  Proof.
    induction l as [|op l IH]; intros s; cbn [runs app fst snd]; [destruct (runs call s l'); reflexivity|].
    destruct (call s op) as [s1 o]. rewrite IH. destruct (runs call s1 l) as [s2 os]. reflexivity.
  Qed.
  Lemma runs_length {S Op Out} (call : S -> Op -> S * Out) l : forall s, length (snd (runs call s l)) = length l.
  Proof.
    induction l as [|op l IH]; intros s; cbn [runs length snd]; [reflexivity|]. destruct (call s op) as [s1 o]. specialize (IH s1).
    destruct (runs call s1 l) as [s2 os]. cbn in *. congruence.
  Qed.
  Lemma kept_runs (ops : list (aop A)) : forall s s', aa_q0 s = aa_q0 s' -> aa_final s = aa_final s' ->
    aa_next s' = 0 -> aa_V s' = [] -> aa_T s' = [] ->
    fst (aa_step (fst (runs aa_step s ops)) AClear) = fst (runs aa_step s' (filter keptA ops)).
  Proof.
    induction ops as [|op ops IH]; intros s s' Q F N V T.
    - destruct s, s'. cbn in *. subst. reflexivity.
    - cbn [runs filter]. assert (X : keptA op = false -> aa_q0 (fst (aa_step s op)) = aa_q0 s /\ aa_final (fst (aa_step s op)) = aa_final s).
      { destruct s as [k V0 T0 q0 f]. destruct op as [|q r a|e|u|q b|q b|]; cbn; try discriminate; intros _; auto.
        - destruct (lookup T0 q a) as [[|x]|]; cbn; try (destruct (mem q V0)); cbn; auto.
        - destruct (mem u V0); cbn; auto. }
      destruct (keptA op) eqn:K.
      + cbn [runs]. destruct (aa_step s op) as [s1 o1] eqn:E1. destruct (aa_step s' op) as [s2 o2] eqn:E2.
        assert (Y : aa_q0 s1 = aa_q0 s2 /\ aa_final s1 = aa_final s2 /\ aa_next s2 = 0 /\ aa_V s2 = [] /\ aa_T s2 = []).
        { destruct s as [k V0 T0 q0 f], s' as [k' V0' T0' q0' f']. cbn in *. subst.
          destruct op as [|q r a|e|u|q b|q b|]; try discriminate; cbn in *; injection E1; injection E2; intros; subst; cbn; auto. }
        destruct Y as (Y1 & Y2 & Y3 & Y4 & Y5). specialize (IH s1 s2 Y1 Y2 Y3 Y4 Y5).
        destruct (runs aa_step s1 ops), (runs aa_step s2 (filter keptA ops)). exact IH.
      + destruct (X eq_refl) as [X1 X2]. destruct (aa_step s op) as [s1 o1]. cbn [fst] in *.
        specialize (IH s1 s' (eq_trans X1 Q) (eq_trans X2 F) N V T). destruct (runs aa_step s1 ops). exact IH.
  Qed.

  (** C111, what is true of an Automaton, for all programs: after [ops], [clear] and [ops'], the automaton is
      the one that a new Automaton is after the set_initial and set_final calls of [ops], then [ops'];
      the calls of [ops'] return the same results. *)
  Theorem C111_cleared_automaton n (ops ops' : list (aop A)) :
    let '(g, outs) := runs A_call (A_init n) (ops ++ AClear :: ops') in
    let '(h, outs') := runs A_call (A_init 0) (filter keptA ops ++ ops') in
    A_vertices g = A_vertices h /\ Permutation (A_edges g) (A_edges h) /\
    (forall q, Permutation (A_out_edges g q) (A_out_edges h q)) /\
    (forall q a, A_delta g q a = A_delta h q a) /\ A_initial g = A_initial h /\ (forall q, A_is_final g q = A_is_final h q) /\
    A_finals g = A_finals h /\ (forall w, A_accepts g w = A_accepts h w) /\
    skipn (S (length ops)) outs = skipn (length (filter keptA ops)) outs'.
  Proof.
    pose proof (arep_runs n (ops ++ AClear :: ops')) as [R O]. pose proof (arep_runs 0 (filter keptA ops ++ ops')) as [R' O'].
    assert (X : fst (runs aa_step (aa_init n) (ops ++ AClear :: ops')) = fst (runs aa_step (aa_init 0) (filter keptA ops ++ ops')) /\
      skipn (S (length ops)) (snd (runs aa_step (aa_init n) (ops ++ AClear :: ops'))) =
      skipn (length (filter keptA ops)) (snd (runs aa_step (aa_init 0) (filter keptA ops ++ ops')))).
    { rewrite !runs_app. cbn [fst snd]. rewrite <- (kept_runs ops (aa_init n) (aa_init 0)) by reflexivity.
      cbn [runs]. set (s := fst (runs aa_step (aa_init n) ops)). destruct (aa_step s AClear) as [s1 o1]. cbn [fst snd].
      pose proof (runs_length aa_step ops (aa_init n)) as L. pose proof (runs_length aa_step (filter keptA ops) (aa_init 0)) as L'.
      rewrite <- L, <- L'. destruct (runs aa_step s1 ops') as [s2 os]. cbn [fst snd]. split; [reflexivity|].
      rewrite !skipn_app, Nat.sub_diag. rewrite skipn_all. rewrite skipn_all2 by lia.
      replace (S _ - _) with 1 by lia. reflexivity. }
    destruct X as [X Y]. rewrite X in R. rewrite <- O, <- O' in Y.
    destruct (runs A_call (A_init n) (ops ++ AClear :: ops')) as [g outs], (runs A_call (A_init 0) (filter keptA ops ++ ops')) as [h outs'].
    cbn [fst snd] in *. set (s := fst (runs aa_step (aa_init 0) (filter keptA ops ++ ops'))) in *.
    assert (V : A_vertices g = A_vertices h) by (rewrite (obs_vertices _ _ R), (obs_vertices _ _ R'); reflexivity).
    assert (I : A_initial g = A_initial h) by (transitivity (aa_q0 s); [apply R|symmetry; apply R']).
    assert (F : forall q, A_is_final g q = A_is_final h q) by (intros q; transitivity (aa_final s q); [apply R|symmetry; apply R']).
    split; [exact V|]. split; [rewrite (obs_edges _ _ R), (obs_edges _ _ R'); reflexivity|].
    split; [intros q; rewrite (obs_out _ _ R), (obs_out _ _ R'); reflexivity|].
    split; [intros q a; rewrite (obs_delta _ _ R), (obs_delta _ _ R'); reflexivity|]. split; [exact I|]. split; [exact F|].
    split; [rewrite (obs_finals _ _ R), (obs_finals _ _ R'); reflexivity|]. split; [|exact Y].
    intros w. assert (Z : A_accepts g w = true <-> A_accepts h w = true).
    { rewrite (accepts_path _ _ R), (accepts_path _ _ R'). rewrite I.
      assert (PP : forall T T' : list (edge A), (forall e, In e T -> In e T') -> forall q w r, path T q w r -> path T' q w r).
      { intros T T' IN q w0 r P. induction P; [constructor|econstructor; [apply IN; eassumption|assumption]]. }
      split; intros (q0 & r & E & P & Fr); exists q0, r; (split; [exact E|]); (split; [|rewrite F in *; exact Fr]);
        (eapply PP; [|exact P]); intros e; rewrite (obs_edges _ _ R), (obs_edges _ _ R'); auto. }
    destruct (A_accepts g w), (A_accepts h w); try reflexivity; [symmetry|]; apply Z; reflexivity.
  Qed.

  (** In particular the cleared automaton has no vertex and no edge, and it accepts at most the empty word,
      which it does if and only if the initial state still carries a final flag. *)
  Theorem C111_cleared_automaton_language n (ops : list (aop A)) :
    let g := fst (runs A_call (A_init n) ops) in
    let g' := fst (runs A_call (A_init n) (ops ++ [AClear])) in
    A_vertices g' = [] /\ A_edges g' = [] /\
    forall w, A_accepts g' w = true <-> w = [] /\ exists q, A_initial g = Some q /\ A_is_final g q = true.
  Proof.
    intros g g'. pose proof (arep_runs n ops) as [R _]. fold g in R. pose proof (arep_runs n (ops ++ [AClear])) as [R' _]. fold g' in R'.
    rewrite runs_app in R'. cbn [fst runs] in R'. set (s := fst (runs aa_step (aa_init n) ops)) in *.
    destruct s as [k V T q0 f]. cbn [aa_step fst] in R'.
    assert (E : A_edges g' = []) by (apply Permutation_nil; symmetry; apply (obs_edges _ _ R')).
    split; [apply (obs_vertices _ _ R')|]. split; [exact E|].
    assert (I : A_initial g' = A_initial g) by (transitivity q0; [apply R'|symmetry; apply R]).
    assert (F : forall q, A_is_final g' q = A_is_final g q) by (intros q; transitivity (f q); [apply R'|symmetry; apply R]).
    intros w. rewrite (accepts_path _ _ R'), E, I. split.
    - intros (q & r & Q & P & Fr). inversion P as [x|x a y w' t Iy P']; subst; [|destruct Iy]. split; [reflexivity|].
      exists r. rewrite <- F. auto.
    - intros (-> & q & Q & Fq). exists q, q. split; [exact Q|]. split; [constructor|]. rewrite F. exact Fq.
  Qed.

  Lemma keptN_steps (ops : list (nfop A)) : forall s s' : anfa A, an_I s = an_I s' -> an_F s = an_F s' ->
    an_next s' = 0 -> an_V s' = [] -> an_T s' = [] ->
    an_step (fold_left an_step ops s) FClear = fold_left an_step (filter keptN ops) s'.
  Proof.
    induction ops as [|op ops IH]; intros s s' Q F N V T.
    - destruct s, s'. cbn in *. subst. reflexivity.
    - cbn [fold_left filter]. destruct (keptN op) eqn:K; cbn [fold_left]; apply IH;
        destruct s as [k V0 T0 I f], s' as [k' V0' T0' I' f']; cbn in *; subst; destruct op; try discriminate; try reflexivity.
  Qed.

  (** C111, what is true of an Nfa. *)
  Theorem C111_cleared_nfa n ini (eps : A) (ops ops' : list (nfop A)) :
    let g := built n ini eps (ops ++ FClear :: ops') in
    let h := built 0 ini eps (filter keptN ops ++ ops') in
    N_vertices g = N_vertices h /\ nf_init g = nf_init h /\ (forall q, N_is_final g q = N_is_final h q) /\
    (forall q a r, In r (N_delta_one_step g [q] a) <-> In r (N_delta_one_step h [q] a)) /\
    (forall w, ~ In eps w -> N_accepts g w = N_accepts h w).
  Proof.
    intros g h. pose proof (C71_nfa_refinement n ini eps (ops ++ FClear :: ops')) as R. cbn zeta in R. fold g in R.
    pose proof (C71_nfa_refinement 0 ini eps (filter keptN ops ++ ops')) as R'. cbn zeta in R'. fold h in R'.
    assert (E : described n ini (ops ++ FClear :: ops') = described 0 ini (filter keptN ops ++ ops')).
    { unfold described. rewrite !fold_left_app. cbn [fold_left]. f_equal. apply keptN_steps; reflexivity. }
    destruct R as (V & I & F & _ & _ & _ & D), R' as (V' & I' & F' & _ & _ & _ & D'). rewrite E in V, I, F, D.
    split; [congruence|]. split; [congruence|]. split; [intros; rewrite F, F'; reflexivity|].
    split; [intros q a r; rewrite D, D'; reflexivity|]. intros w NE.
    destruct (C23_nfa_accepts n ini eps (ops ++ FClear :: ops') w NE) as (b & B & H). fold g in B.
    destruct (C23_nfa_accepts 0 ini eps (filter keptN ops ++ ops') w NE) as (b' & B' & H'). fold h in B'.
    rewrite B, B'. rewrite E, <- H' in H. f_equal. destruct b, b'; try reflexivity; [symmetry|]; apply H; reflexivity.
  Qed.

  Theorem C111_cleared_nfa_language n ini (eps : A) (ops : list (nfop A)) w : ~ In eps w ->
    let g := built n ini eps ops in
    exists b, N_accepts (built n ini eps (ops ++ [FClear])) w = Some b /\
      (b = true <-> w = [] /\ exists q, In q (nf_init g) /\ N_is_final g q = true).
  Proof.
    intros NE g. destruct (C23_nfa_accepts n ini eps (ops ++ [FClear]) w NE) as (b & B & H). exists b. split; [exact B|]. rewrite H.
    pose proof (C71_nfa_refinement n ini eps ops) as R. cbn zeta in R. fold g in R. destruct R as (_ & I & F & _). rewrite I.
    assert (D : forall q, N_is_final g q = an_F (described n ini ops) q) by exact F. clear F.
    unfold described. rewrite fold_left_app. cbn [fold_left]. fold (described n ini ops). destruct (described n ini ops) as [k V T Q f] eqn:E. cbn in *.
    split.
    - intros (q & t & Iq & N & Ft). assert (X : w = [] /\ t = q).
      { clear -N. destruct N as [|? ? ? ? X|? ? ? ? ? ? X]; [auto|destruct X|destruct X]. }
      destruct X as [-> ->]. split; [reflexivity|]. exists q. rewrite D. auto.
    - intros (-> & q & Iq & Fq). exists q, q. split; [exact Iq|]. split; [|rewrite <- D; exact Fq]. constructor.
  Qed.
End T.

(** ** Concrete cases *)
Example ex_C111 : let ops := [AAddEdge 0 1 7; ASetFinal 1 true; AAddVertex; ASetInitial (Some 1) true] in
  filter keptA ops = [ASetFinal 1 true; ASetInitial (Some 1) true] /\
  map (A_accepts (fst (runs A_call (A_init 2) (ops ++ AClear :: [AAddVertex; AAddVertex; AAddEdge 1 0 8; AAddEdge 0 1 7]))))
    [[]; [8]; [8; 7]; [7]] = [true; false; true; false].
Proof. vm_compute. auto. Qed.
Example ex_C111_nfa : let ops := [FAddEdge 0 1 7; FSetFinal 1 true; FAddVertex; FSetInitials [0; 1]] in
  filter keptN ops = [FSetFinal 1 true; FSetInitials [0; 1]] /\
  map (N_accepts (built 2 [] 9 (ops ++ FClear :: [FAddVertex; FAddVertex; FAddEdge 1 0 8; FAddEdge 0 1 7])))
    [[]; [8]; [8; 7]; [7]] = [Some true; Some false; Some true; Some true].
Proof. vm_compute. auto. Qed.

Print Assumptions C111_cleared_automaton_is_new_refuted.
Print Assumptions C111_cleared_nfa_is_new_refuted.
Print Assumptions C111_cleared_automaton.
Print Assumptions C111_cleared_automaton_language.
Print Assumptions C111_cleared_nfa.
Print Assumptions C111_cleared_nfa_language.
