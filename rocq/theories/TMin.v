(** Theorems C79 and C80: the number of states of the automata returned by hopcroft_minimize and revuz_minimize. *)
From Verif Require Import Graph GraphProofs Automaton AutomatonSpec AutomatonProofs AutomatonProofs2 Revuz RevuzSpec RevuzProofs RevuzProofs2 TRevuz Hopcroft HopcroftProofs HopcroftProofs2 THopcroft MinSpec MinProofs Base BaseProofs.

Section A.
  Context {A : Type} {EA : EqDec A}.

  (** What two automata of the same language need for the second one to be accessible *)
  Lemma quotient_accessible (d M : dfa A) (cls : nat -> nat) : wf_dfa d -> wf_dfa M -> accessible d -> (forall w, language M w <-> language d w) ->
    (forall q, In q (d_states d) -> In (cls q) (d_states M) /\ forall w, words_of M (cls q) w <-> words_of d q w) -> (forall i, In i (d_states M) -> exists q, In q (d_states d) /\ cls q = i) ->
    (forall p q, In p (d_states M) -> In q (d_states M) -> (forall w, words_of M p w <-> words_of M q w) -> p = q) ->
    (forall w q, path (d_trans d) (d_init d) w q -> exists i, path (d_trans M) (d_init M) w i) -> accessible M.
  Proof.
    intros WD WM AC L CW SU DI FW i Vi. destruct (SU i Vi) as (q & Vq & <-). destruct (AC q Vq) as [w P]. destruct (FW w q P) as [j Q]. exists w. assert (j = cls q) as <-; [|exact Q].
    apply DI; [apply (p_in M WM _ _ _ Q), WM|exact Vi|]. intros v. destruct (CW q Vq) as [_ C]. rewrite C, (words_after d w q WD P), (words_after M w j WM Q). apply L.
  Qed.

  Section Hopcroft.
    Variables (ord_w : set_order (list nat)) (ord_p : nat -> set_order (list nat)) (ord_a : set_order A) (ord_l : set_order (list nat)) (ord_q : list nat -> list nat).
    Hypothesis (OW : valid_order ord_w) (OP : forall n, valid_order (ord_p n)) (OA : valid_order ord_a) (OL : valid_order ord_l) (OQ : forall B, Permutation (ord_q B) B).

    (** C79. hopcroft_minimize returns the smallest deterministic automaton of its language when every state of g is accessible from the initial state and accepts a word, and some states are final and some are not;
        any other automaton with that language and that number of states is the same one up to the names of the states. *)
    Theorem C79_hopcroft_trim_partial n (ops : list (aop A)) fuel q0 : disciplined (aa_init n) ops ->
      let g := fst (runs IA_call (IA_init n) ops) in
      A_initial (ia_base g) = Some q0 -> In q0 (IA_vertices g) -> accessible (ia_dfa g q0) -> coaccessible (ia_dfa g q0) ->
      (exists q, In q (IA_vertices g) /\ A_is_final (ia_base g) q = true) -> (exists q, In q (IA_vertices g) /\ A_is_final (ia_base g) q = false) -> length (IA_vertices g) <= fuel ->
      exists g' q0', hopcroft_minimize fuel g ord_w ord_p ord_a ord_l ord_q = Some (g', Ok tt) /\ A_initial (ia_base g') = Some q0' /\ wf_dfa (ia_dfa g' q0') /\
        (forall w, language (ia_dfa g' q0') w <-> language (ia_dfa g q0) w) /\
        forall d, wf_dfa d -> (forall w, language d w <-> language (ia_dfa g q0) w) ->
          length (IA_vertices g') <= length (d_states d) /\ (length (IA_vertices g') = length (d_states d) -> isomorphic (ia_dfa g' q0') d).
    Proof using OW OP OA OL OQ.
      intros D g Q0 V0 AC CO HF HN LF. destruct (C47_hopcroft_minimize_partial ord_w ord_p ord_a ord_l ord_q OW OP OA OL OQ n ops fuel D HF HN) as (g' & cls & E & (q0' & Q0' & _ & W' & AL') & L & CW & SU & _ & DI); [exists q0; auto|exact LF|]. fold g in E, L, CW, SU, DI.
      destruct (iarep_runs ops _ _ (iarep_init n) D) as [R _]. fold g in R. set (s := fst (runs ia_step (aa_init n) ops)) in R. clearbody g s. specialize (DI (or_intror CO)).
      assert (W : wf_dfa (ia_dfa g q0)) by apply (iarep_wf g s q0 R V0).
      assert (AL : forall w, A_accepts (ia_base g) w = true <-> language (ia_dfa g q0) w) by (intros w; apply (accepts_language g s q0 w R Q0)).
      exists g', q0'. split; [exact E|]. split; [exact Q0'|]. split; [exact W'|].
      assert (LL : forall w, language (ia_dfa g' q0') w <-> language (ia_dfa g q0) w) by (intros w; rewrite <- AL, <- AL', L; reflexivity).
      split; [exact LL|]. intros d WD LD.
      assert (CO' : coaccessible (ia_dfa g' q0')).
      { intros i Vi. destruct (SU i Vi) as (q & Vq & <-). destruct (CO q Vq) as [w Hw]. exists w. apply (proj2 (CW q Vq) w). exact Hw. }
      apply (min_trim (ia_dfa g' q0') W'); [|exact CO'|exact DI|exact WD|intros w; rewrite LL; apply LD].
      apply (quotient_accessible (ia_dfa g q0) _ cls); [assumption..| |exact SU|exact DI|].
      - intros q Vq. destruct (CW q Vq) as [C1 C2]. split; [exact C1|]. intros w. apply C2.
      - apply (follow_co (ia_dfa g q0) (ia_dfa g' q0') W CO). intros w. apply LL.
    Qed.

    (** Without the states that accept no word: the same among the automata in which every state reads every symbol of the alphabet of g. *)
    Theorem C79_hopcroft_complete_partial n (ops : list (aop A)) fuel q0 : disciplined (aa_init n) ops ->
      let g := fst (runs IA_call (IA_init n) ops) in
      A_initial (ia_base g) = Some q0 -> In q0 (IA_vertices g) -> accessible (ia_dfa g q0) -> complete_over (A_alphabet (ia_base g)) (ia_dfa g q0) ->
      (exists q, In q (IA_vertices g) /\ A_is_final (ia_base g) q = true) -> (exists q, In q (IA_vertices g) /\ A_is_final (ia_base g) q = false) -> length (IA_vertices g) <= fuel ->
      exists g' q0', hopcroft_minimize fuel g ord_w ord_p ord_a ord_l ord_q = Some (g', Ok tt) /\ A_initial (ia_base g') = Some q0' /\ wf_dfa (ia_dfa g' q0') /\ complete_over (A_alphabet (ia_base g)) (ia_dfa g' q0') /\
        (forall w, language (ia_dfa g' q0') w <-> language (ia_dfa g q0) w) /\
        forall d, wf_dfa d -> complete_over (A_alphabet (ia_base g)) d -> (forall w, language d w <-> language (ia_dfa g q0) w) ->
          length (IA_vertices g') <= length (d_states d) /\ (length (IA_vertices g') = length (d_states d) -> isomorphic (ia_dfa g' q0') d).
    Proof using OW OP OA OL OQ.
      intros D g Q0 V0 AC CO HF HN LF. destruct (C47_hopcroft_minimize_partial ord_w ord_p ord_a ord_l ord_q OW OP OA OL OQ n ops fuel D HF HN) as (g' & cls & E & (q0' & Q0' & _ & W' & AL') & L & CW & SU & _ & DI); [exists q0; auto|exact LF|]. fold g in E, L, CW, SU, DI.
      destruct (iarep_runs ops _ _ (iarep_init n) D) as [R _]. fold g in R. set (s := fst (runs ia_step (aa_init n) ops)) in R. clearbody g s.
      assert (W : wf_dfa (ia_dfa g q0)) by apply (iarep_wf g s q0 R V0).
      assert (AL : forall w, A_accepts (ia_base g) w = true <-> language (ia_dfa g q0) w) by (intros w; apply (accepts_language g s q0 w R Q0)).
      assert (EE : forall e, In e (IA_edges g) <-> In e (aa_T s)) by (intros e; pose proof (obs_edges _ _ (proj1 R)) as P; split; apply Permutation_in; [exact P|symmetry; exact P]).
      assert (CM : A_is_complete (ia_base g) = true).
      { apply (obs_complete _ _ (proj1 R)). intros q a Vq (p & r & I). destruct CO as [_ CO]. destruct (CO q a) as [x J]; [cbn; rewrite <- (obs_vertices _ _ (proj1 R)) in Vq; exact Vq|apply (obs_alphabet _ _ (proj1 R)); exists p, r; exact I|]. exists x. apply EE, J. }
      specialize (DI (or_introl CM)).
      exists g', q0'. split; [exact E|]. split; [exact Q0'|]. split; [exact W'|].
      assert (LL : forall w, language (ia_dfa g' q0') w <-> language (ia_dfa g q0) w) by (intros w; rewrite <- AL, <- AL', L; reflexivity).
      assert (R1 : forall (T : list (edge A)) q a, readable T q [a] <-> exists r, In (Edge q r a) T).
      { intros T q a. split; [intros (t & P); inversion P as [|? ? x ? ? I P']; subst; exists x; exact I|intros [r I]; exists r; econstructor; [exact I|constructor]]. }
      assert (CO' : complete_over (A_alphabet (ia_base g)) (ia_dfa g' q0')).
      { destruct CO as [C1 C2]. split.
        - intros i j a I. cbn in I. destruct (SU i) as (q & Vq & <-); [apply (wf_trans _ W' _ _ _ I)|]. destruct (proj2 (CW q Vq) [a]) as [_ RD]. destruct (proj1 (R1 _ _ _) (proj1 RD (proj2 (R1 _ _ _) (ex_intro _ j I)))) as [r J]. apply (C1 _ _ _ J).
        - intros i a Vi Ia. destruct (SU i Vi) as (q & Vq & <-). destruct (proj2 (CW q Vq) [a]) as [_ RD]. apply R1, RD, R1, (C2 q a Vq Ia). }
      split; [exact CO'|]. split; [exact LL|]. intros d WD CD LD.
      apply (min_complete (ia_dfa g' q0') (A_alphabet (ia_base g)) W'); [|exact CO'|exact DI|exact WD|exact CD|intros w; rewrite LL; apply LD].
      apply (quotient_accessible (ia_dfa g q0) _ cls); [assumption..| |exact SU|exact DI|].
      - intros q Vq. destruct (CW q Vq) as [C1 C2]. split; [exact C1|]. intros w. apply C2.
      - apply (follow_complete _ _ _ CO W' CO').
    Qed.
  End Hopcroft.

  (** C80. When g is acyclic, every state is accessible from the initial state and accepts a word, revuz_minimize returns the smallest deterministic automaton of its language; any other automaton with that language
      and that number of states is the same one up to the names of the states. *)
  Theorem C80_revuz_minimal n (ops : list (aop A)) fuel ord ord_v q0 : disciplined (aa_init n) ops -> valid_order ord -> valid_order ord_v ->
    let g := fst (runs IA_call (IA_init n) ops) in
    A_initial (ia_base g) = Some q0 -> In q0 (IA_vertices g) -> acyclic (aut_arc (IA_edges g)) -> accessible (ia_dfa g q0) -> coaccessible (ia_dfa g q0) -> length (IA_vertices g) <= fuel ->
    exists g' h, revuz_minimize fuel ord ord_v [] g = Some (g', Ok h) /\ A_initial (ia_base g') = Some q0 /\ wf_dfa (ia_dfa g' q0) /\
      (forall w, A_accepts (ia_base g') w = A_accepts (ia_base g) w) /\ (forall w, language (ia_dfa g' q0) w <-> language (ia_dfa g q0) w) /\
      forall d, wf_dfa d -> (forall w, language d w <-> language (ia_dfa g q0) w) ->
        length (IA_vertices g') <= length (d_states d) /\ (length (IA_vertices g') = length (d_states d) -> isomorphic (ia_dfa g' q0) d).
  Proof.
    intros D OE OV g Q0 V0 ACY AC CO LF. destruct (C48_revuz_minimize_partial n ops fuel ord ord_v D OE OV ACY LF) as (g' & h & E & Q0' & W' & KEEP & GONE & _ & DI & L & _). fold g in E, Q0', W', KEEP, GONE, DI, L. rewrite Q0 in Q0'.
    destruct (iarep_runs ops _ _ (iarep_init n) D) as [R _]. fold g in R. set (s := fst (runs ia_step (aa_init n) ops)) in R. clearbody g s.
    assert (W : wf_dfa (ia_dfa g q0)) by apply (iarep_wf g s q0 R V0).
    (* no other state accepts the words accepted by the automaton *)
    assert (UNIQ : forall q, In q (IA_vertices g) -> (forall w, accepted g q w <-> accepted g q0 w) -> q = q0).
    { intros q Vq EQ. destruct (AC q Vq) as [w P]. cbn in P. destruct w as [|a w]; [inversion P; reflexivity|]. exfalso. destruct (CO q Vq) as [v Hv]. cbn in Hv.
      assert (LONG : forall k, exists u, k <= length u /\ accepted g q u).
      { induction k as [|k (u & Lu & Hu)]; [exists v; split; [lia|exact Hv]|]. exists ((a :: w) ++ u). split; [rewrite app_length; cbn; lia|]. apply EQ. destruct Hu as (t & Pt & Ft). exists t. split; [apply (p_app _ _ _ q); assumption|exact Ft]. }
      destruct (LONG (length (IA_vertices g))) as (u & Lu & t & Pt & _).
      assert (UP : upath (aut_arc (IA_edges g)) (length u) q t) by (clear -Pt; induction Pt as [|x b y u z I P IH]; [constructor|]; econstructor; [exists b; exact I|exact IH]).
      assert (CL : forall x y, aut_arc (IA_edges g) x y -> In x (IA_vertices g) /\ In y (IA_vertices g)) by (intros x y [b I]; apply (wf_trans _ W _ _ _ I)).
      pose proof (path_short (IA_vertices g) _ CL ACY _ _ _ UP Vq). lia. }
    assert (L' : forall w, A_accepts (ia_base g') w = A_accepts (ia_base g) w).
    { apply L. intros i q Ei _ Vq Lq EQ. rewrite Q0 in Ei. injection Ei as <-. rewrite (UNIQ q Vq EQ) in Lq. lia. }
    assert (V0' : In q0 (IA_vertices g')).
    { destruct (in_dec Nat.eq_dec q0 (IA_vertices g')) as [V|NV]; [exact V|]. destruct (GONE q0 V0 NV) as (q & Vq & Lq & EQ). rewrite (UNIQ q (proj1 (KEEP q Vq)) (fun w => proj1 (EQ w))) in Lq. lia. }
    specialize (W' q0 V0'). exists g', h. split; [exact E|]. split; [exact Q0'|]. split; [exact W'|]. split; [exact L'|].
    assert (LL : forall w, language (ia_dfa g' q0) w <-> language (ia_dfa g q0) w) by (intros w; apply (KEEP q0 V0')). split; [exact LL|]. intros d WD LD.
    assert (CO' : coaccessible (ia_dfa g' q0)) by (intros q Vq; destruct (CO q (proj1 (KEEP q Vq))) as [w Hw]; exists w; apply (KEEP q Vq), Hw).
    assert (DI' : forall x y, In x (IA_vertices g') -> In y (IA_vertices g') -> (forall w, accepted g' x w <-> accepted g' y w) -> x = y).
    { apply DI. intros q Vq LQ. destruct (CO q Vq) as (w & t & P & F). inversion P as [|? a x ? ? I P']; subst; [exact F|]. destruct (LQ x). exists a. exact I. }
    apply (min_trim (ia_dfa g' q0) W'); [|exact CO'|exact DI'|exact WD|intros w; rewrite LL; apply LD].
    intros q Vq. cbn in Vq. destruct (KEEP q Vq) as [Vg KQ]. destruct (AC q Vg) as [w P]. destruct (follow_co (ia_dfa g q0) (ia_dfa g' q0) W CO (fun w => proj2 (LL w)) w q P) as [j Pj]. exists w. assert (j = q) as <-; [|exact Pj].
    apply DI'; [apply (p_in _ W' _ _ _ Pj), V0'|exact Vq|]. intros v. rewrite KQ. etransitivity; [apply (words_after _ w j W' Pj)|]. rewrite LL. symmetry. apply (words_after _ w q W P).
  Qed.
End A.
Print Assumptions C79_hopcroft_trim_partial.
Print Assumptions C79_hopcroft_complete_partial.
Print Assumptions C80_revuz_minimal.

(** One final state without transition: hopcroft_minimize returns two states although one is enough. *)
Theorem C79_single_state_refuted : exists (ops : list (aop nat)) g', disciplined (aa_init 1) ops /\
  let g := fst (runs IA_call (IA_init 1) ops) in
  accessible (ia_dfa g 0) /\ coaccessible (ia_dfa g 0) /\ hopcroft_minimize 3 g ido (fun _ => ido) ido ido (fun B => B) = Some (g', Ok tt) /\ length (IA_vertices g) = 1 /\ length (IA_vertices g') = 2.
Proof.
  exists [ASetFinal 0 true]. eexists. split; [cbn; auto|]. intros g. split; [|split; [|split; [vm_compute; reflexivity|split; reflexivity]]].
  - intros q [<-|[]]. exists []. constructor.
  - intros q [<-|[]]. exists [], 0. split; [constructor|reflexivity].
Qed.
Print Assumptions C79_single_state_refuted.

Lemma ido_valid X : valid_order (@ido X).
Proof. intros n l. reflexivity. Qed.

(** 0 -1-> 1, 0 -2-> 2, 1 -3-> 3, 2 -3-> 4, 3 -3-> 3, 4 -3-> 4; 3 and 4 final: no automaton with less than 3 states has this language. *)
Example ex_trim : accessible (ia_dfa THopcroft.ex_g 0) /\ coaccessible (ia_dfa THopcroft.ex_g 0).
Proof.
  split; [|exact ex_coaccessible]. intros q Vq. vm_compute in Vq.
  assert (E : forall e, In e [Edge 0 1 1; Edge 0 2 2; Edge 1 3 3; Edge 2 4 3] -> In e (IA_edges THopcroft.ex_g)) by (intros e I; vm_compute; cbn in I; tauto).
  destruct Vq as [<-|[<-|[<-|[<-|[<-|[]]]]]]; [exists []|exists [1]|exists [2]|exists [1; 3]|exists [2; 3]]; repeat first [constructor|eapply path_cons; [apply E; cbn; tauto|]].
Qed.
Example C79_example : forall d : dfa nat, wf_dfa d -> (forall w, language d w <-> language (ia_dfa THopcroft.ex_g 0) w) -> 3 <= length (d_states d).
Proof.
  intros d W L. destruct ex_trim as [AC CO].
  destruct (C79_hopcroft_trim_partial ido (fun _ => ido) ido ido (fun B => B) (ido_valid _) (fun _ => ido_valid _) (ido_valid _) (ido_valid _) (fun B => Permutation_refl B) 5 THopcroft.ex_ops 5 0 THopcroft.ex_disciplined) as (g' & q0' & E & _ & _ & _ & M).
  - reflexivity.
  - vm_compute. auto.
  - exact AC.
  - exact CO.
  - exists 3. vm_compute. auto 10.
  - exists 0. vm_compute. auto.
  - vm_compute. lia.
  - destruct (M d W L) as [LE _]. assert (EV : length (IA_vertices g') = 3); [|rewrite EV in LE; exact LE].
    change (hopcroft_minimize 5 THopcroft.ex_g ido (fun _ => ido) ido ido (fun B => B) = Some (g', Ok tt)) in E. clear -E. vm_compute in E. injection E as <-. reflexivity.
Qed.
(** The words over [7] of even length, with four states 0 -7-> 1 -7-> 2 -7-> 3 -7-> 0: two states are needed when each reads 7. *)
Definition ex2_ops : list (aop nat) := [AAddEdge 0 1 7; AAddEdge 1 2 7; AAddEdge 2 3 7; AAddEdge 3 0 7; ASetFinal 0 true; ASetFinal 2 true].
Definition ex2_g : iaut nat := fst (runs IA_call (IA_init 4) ex2_ops).
Example C79_example_complete : forall d : dfa nat, wf_dfa d -> complete_over [7] d -> (forall w, language d w <-> language (ia_dfa ex2_g 0) w) -> 2 <= length (d_states d) /\ (length (d_states d) = 2 -> exists g' q0', isomorphic (ia_dfa g' q0') d).
Proof.
  intros d W C L.
  assert (E : forall e, In e [Edge 0 1 7; Edge 1 2 7; Edge 2 3 7; Edge 3 0 7] <-> In e (IA_edges ex2_g)) by (intros e; vm_compute; tauto).
  destruct (C79_hopcroft_complete_partial ido (fun _ => ido) ido ido (fun B => B) (ido_valid _) (fun _ => ido_valid _) (ido_valid _) (ido_valid _) (fun B => Permutation_refl B) 4 ex2_ops 5 0) as (g' & q0' & EH & _ & _ & _ & _ & M).
  - cbn. intuition discriminate.
  - reflexivity.
  - vm_compute. auto.
  - intros q Vq. vm_compute in Vq. change (exists w, path (IA_edges ex2_g) 0 w q). destruct Vq as [<-|[<-|[<-|[<-|[]]]]]; [exists []|exists [7]|exists [7; 7]|exists [7; 7; 7]]; repeat first [constructor|eapply path_cons; [apply E; cbn; tauto|]].
  - split.
    + intros q r a I. apply E in I. vm_compute. cbn in I. destruct I as [[= <- <- <-]|[[= <- <- <-]|[[= <- <- <-]|[[= <- <- <-]|[]]]]]; auto.
    + intros q a Vq Ia. vm_compute in Vq, Ia. destruct Ia as [<-|[]]. change (exists r, In (Edge q r 7) (IA_edges ex2_g)). destruct Vq as [<-|[<-|[<-|[<-|[]]]]]; [exists 1|exists 2|exists 3|exists 0]; apply E; cbn; tauto.
  - exists 0. vm_compute. auto.
  - exists 1. vm_compute. auto.
  - vm_compute. lia.
  - assert (EV : length (IA_vertices g') = 2).
    { change (hopcroft_minimize 5 ex2_g ido (fun _ => ido) ido ido (fun B => B) = Some (g', Ok tt)) in EH. clear -EH. vm_compute in EH. injection EH as <-. reflexivity. }
    destruct (M d W C L) as [LE IS]. rewrite EV in LE, IS. split; [exact LE|]. intros E2. exists g', q0'. apply IS. congruence.
Qed.
(** 0 -1-> 1, 0 -2-> 2, 1 -3-> 3, 2 -3-> 4, 3 and 4 final: three states are needed. *)
Example C80_example : forall d : dfa nat, wf_dfa d -> (forall w, language d w <-> language (ia_dfa TRevuz.ex_g 0) w) -> 3 <= length (d_states d).
Proof.
  intros d W L.
  assert (E : forall e, In e [Edge 0 1 1; Edge 0 2 2; Edge 1 3 3; Edge 2 4 3] -> In e (IA_edges TRevuz.ex_g)) by (intros e I; vm_compute; cbn in I; tauto).
  destruct (C80_revuz_minimal 5 TRevuz.ex_ops 5 id_ord id_ord 0 TRevuz.ex_disciplined (id_ord_valid _) (id_ord_valid _)) as (g' & h & EH & _ & _ & _ & _ & M).
  - reflexivity.
  - vm_compute. auto.
  - exact TRevuz.ex_acyclic.
  - intros q Vq. vm_compute in Vq. change (exists w, path (IA_edges TRevuz.ex_g) 0 w q). destruct Vq as [<-|[<-|[<-|[<-|[<-|[]]]]]]; [exists []|exists [1]|exists [2]|exists [1; 3]|exists [2; 3]]; repeat first [constructor|eapply path_cons; [apply E; cbn; tauto|]].
  - intros q Vq. vm_compute in Vq. change (exists w, accepted TRevuz.ex_g q w). destruct Vq as [<-|[<-|[<-|[<-|[<-|[]]]]]]; [exists [1; 3], 3|exists [3], 3|exists [3], 4|exists [], 3|exists [], 4]; (split; [|reflexivity]); repeat first [constructor|eapply path_cons; [apply E; cbn; tauto|]].
  - vm_compute. lia.
  - destruct (M d W L) as [LE _]. assert (EV : length (IA_vertices g') = 3); [|rewrite EV in LE; exact LE].
    change (revuz_minimize 5 id_ord id_ord [] TRevuz.ex_g = Some (g', Ok h)) in EH. clear -EH. vm_compute in EH. injection EH as <- <-. reflexivity.
Qed.
