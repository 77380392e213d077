(** Theorem C95: comparing regular expressions with compile_dfa and deterministic_inclusion. *)
From Coq Require Import String ZArith.
From Verif Require Import Str BaseProofs Graph Automaton AutomatonSpec Nfa NfaSpec NfaProofs NfaProofs2 Thompson ThompsonSpec ThompsonProofs ThompsonProofs3 ThompsonProofs4 TThompson ShuntingYard Regexp RegexpSpec RegexpProofs RegexpProofs2 RegexpProofs3 RegexpProofs4 TRegexp PBFS PBFSProofs PBFSProofs2 TPBFS.
From Verif Require Import Base.
Open Scope string_scope.
Open Scope nat_scope.
Open Scope list_scope.

Section C95.
  Variables (ordc : set_order char) (ordn : set_order nat) (alphabet : list char).
  Hypothesis OC : valid_order ordc.
  Hypothesis ON : valid_order ordn.
  Variables (complete : bool) (opop : set_order (list nat)) (osym : set_order char) (ord : set_order char).
  Hypothesis OP : valid_order opop.
  Hypothesis OS : valid_order osym.
  Hypothesis OI : valid_order ord.

  (** [subset L1 L2], and the meaning of the results of deterministic_inclusion *)
  Definition subset (L1 L2 : str -> Prop) : Prop := forall w, L1 w -> L2 w.
  Definition relation (r : option Z) (L1 L2 : str -> Prop) : Prop :=
    (r = Some 0%Z <-> subset L1 L2 /\ subset L2 L1) /\ (r = Some 1%Z <-> subset L1 L2 /\ ~ subset L2 L1) /\
    (r = Some (-1)%Z <-> subset L2 L1 /\ ~ subset L1 L2) /\ (r = None <-> ~ subset L1 L2 /\ ~ subset L2 L1).
  (** deterministic_inclusion(compile_dfa(s1), compile_dfa(s2)); [fuel] for the three loops *)
  Definition compare_regexps (s1 s2 : str) (fuel : nat) : option (res (option Z)) :=
    match compile_dfa ordc ordn alphabet s1 complete opop osym fuel, compile_dfa ordc ordn alphabet s2 complete opop osym fuel with
    | Some (Ok d1), Some (Ok d2) => option_map Ok (deterministic_inclusion d1 d2 ord fuel)
    | Some (Raise e), _ => Some (Raise e)
    | Some (Ok _), Some (Raise e) => Some (Raise e)
    | None, _ | _, None => None
    end.

  Lemma no_epsilon (d : aut char) : (forall q a r, A_delta d q a = Some r -> a <> epsilon) -> forall w q r, A_delta_word d (Some q) w = Some r -> ~ In epsilon w.
  Proof.
    intros H w. induction w as [|a w IH]; intros q r E; [intros []|]. cbn [A_delta_word] in E. destruct (A_delta d q a) as [q'|] eqn:D.
    - intros [X|X]; [apply (H _ _ _ D); auto|]. apply (IH q' r E X).
    - destruct w; discriminate E.
  Qed.
  Lemma moore_loop_mono (g : nfa char) fuel : forall fuel' n d m todo x, fuel <= fuel' -> moore_loop g complete opop osym fuel n d m todo = Some x -> moore_loop g complete opop osym fuel' n d m todo = Some x.
  Proof.
    induction fuel as [|fuel IH]; intros [|fuel'] n d m todo x LF E; try discriminate E; [lia|]. cbn [moore_loop] in *. destruct (opop n todo) as [|qs todo']; [exact E|].
    destruct (fget m qs) as [q|]; [|exact E]. destruct (moore_sigma g complete qs) as [sigma|]; cbn [obind] in *; [|discriminate E].
    destruct (moore_symbols g q qs (osym n sigma) d m todo') as [[[[d1 m1] todo1] [u|e]]|]; cbn [obind] in *; [|exact E|discriminate E]. apply (IH fuel'); [lia|exact E].
  Qed.
  Lemma moore_mono (g : nfa char) fuel fuel' d : fuel <= fuel' -> forall o, moore_determination g complete opop osym fuel = Some (d, o) -> moore_determination g complete opop osym fuel' = Some (d, o).
  Proof.
    intros LF o E. unfold moore_determination in *. destruct (N_delta_epsilon g (nf_init g)) as [q0s|]; cbn [obind] in *; [|discriminate E].
    destruct (dfa_add_state g (A_init 0) [] q0s) as [[d1 m1] [u|e]]; [|exact E]. eapply moore_loop_mono; eassumption.
  Qed.
  Lemma compile_mono s fuel fuel' x : fuel <= fuel' -> compile_dfa ordc ordn alphabet s complete opop osym fuel = Some x -> compile_dfa ordc ordn alphabet s complete opop osym fuel' = Some x.
  Proof.
    intros LF. unfold compile_dfa. destruct (thompson_compile_nfa ordc ordn alphabet s) as [y|e]; [|auto].
    destruct (moore_determination (fst (fst y)) complete opop osym fuel) as [[d o]|] eqn:E; [|discriminate]. rewrite (moore_mono _ _ _ _ LF _ E). auto.
  Qed.
  Lemma pbfs_loop_mono {St} (get1 : St -> aut char) g2 ee dv ip fuel : forall fuel' n s st col x, fuel <= fuel' ->
    pbfs_loop get1 g2 ord ee dv ip fuel n s st col = Some x -> pbfs_loop get1 g2 ord ee dv ip fuel' n s st col = Some x.
  Proof.
    induction fuel as [|fuel IH]; intros [|fuel'] n s st col x LF E; try discriminate E; [lia|]. cbn [pbfs_loop] in *. destruct st as [|[q1 q2] st]; [exact E|].
    destruct (symbols _ _ _ _ _ _ _ _ _ _ _) as [[[s' st1] col1] [u|e]]; [|exact E]. apply IH; [lia|exact E].
  Qed.
  Lemma inclusion_mono (d1 d2 : aut char) fuel fuel' x : fuel <= fuel' -> deterministic_inclusion d1 d2 ord fuel = Some x -> deterministic_inclusion d1 d2 ord fuel' = Some x.
  Proof.
    intros LF. unfold deterministic_inclusion, pbfs. destruct (inclusion_update d1 d2 0%Z _ _) as [s' [u|e]]; [|auto].
    destruct (pbfs_loop _ _ _ _ _ _ fuel _ _ _ _) as [y|] eqn:E; [|discriminate]. rewrite (pbfs_loop_mono _ _ _ _ _ _ _ _ _ _ _ _ LF E). auto.
  Qed.
  Lemma compare_mono s1 s2 fuel fuel' x : fuel <= fuel' -> compare_regexps s1 s2 fuel = Some x -> compare_regexps s1 s2 fuel' = Some x.
  Proof.
    intros LF. unfold compare_regexps. destruct (compile_dfa _ _ _ s1 _ _ _ fuel) as [y1|] eqn:E1; [|discriminate]. rewrite (compile_mono _ _ _ _ LF E1).
    destruct y1 as [d1|e]; [|auto]. destruct (compile_dfa _ _ _ s2 _ _ _ fuel) as [y2|] eqn:E2; [|discriminate]. rewrite (compile_mono _ _ _ _ LF E2).
    destruct y2 as [d2|e]; [|auto]. destruct (deterministic_inclusion d1 d2 ord fuel) as [r|] eqn:E; [|discriminate]. rewrite (inclusion_mono _ _ _ _ _ LF E). auto.
  Qed.

  (** the automaton of a regular expression, with its size *)
  Lemma dfa_of s L : computes epsilon (thompson_compile_nfa ordc ordn alphabet s) L ->
    exists bound d, (forall fuel, bound <= fuel -> compile_dfa ordc ordn alphabet s complete opop osym fuel = Some (Ok d)) /\
      forall w, A_accepts d w = true <-> ~ In epsilon w /\ L w.
  Proof.
    intros (x & E & G & HL). unfold compile_dfa. rewrite E. set (b := 2 ^ List.length (universe (fst (fst x))) + 1).
    destruct (moore_run (fst (fst x)) complete opop osym OP OS b (le_n _)) as (d & Ed & Hd & _ & NEPS & _).
    assert (EQ : nf_eps (fst (fst x)) = epsilon) by (destruct x as [[g q0] f]; apply (p_eps _ _ _ _ (proj1 G))). rewrite EQ in *.
    assert (AB : forall w, ~ In epsilon w -> (A_accepts d w = true <-> accepted x w)).
    { intros w NE. rewrite (Hd w NE). unfold accepted.
      destruct (N_accepts_spec (fst (fst x)) w) as (c & Eb & Hb); [rewrite EQ; exact NE|]. rewrite Eb. rewrite EQ in Hb. rewrite <- Hb.
      split; [intros ->; reflexivity|]. intros X. injection X as ->. reflexivity. }
    exists b, d. split.
    - intros fuel LF. destruct (moore_run (fst (fst x)) complete opop osym OP OS fuel LF) as (d' & Ed' & _).
      pose proof (moore_mono _ _ _ _ LF _ Ed) as Ed''. rewrite Ed''. reflexivity.
    - intros w. split.
      + intros AC. assert (NE : ~ In epsilon w).
        { unfold A_accepts in AC. destruct (A_initial d) as [q|] eqn:Q.
          - destruct (A_delta_word d (Some q) w) as [r|] eqn:D; [|discriminate]. eapply no_epsilon; [|exact D]. intros q1 a r1 X. apply (NEPS _ _ _ X).
          - destruct w as [|a w]; [intros []|discriminate AC]. }
        split; [exact NE|]. apply (HL w NE). apply (AB w NE), AC.
      + intros [NE IL]. apply (AB w NE), (HL w NE), IL.
  Qed.

  Lemma compare_languages s1 s2 L1 L2 : computes epsilon (thompson_compile_nfa ordc ordn alphabet s1) L1 -> computes epsilon (thompson_compile_nfa ordc ordn alphabet s2) L2 ->
    exists r, (exists fuel, compare_regexps s1 s2 fuel = Some (Ok r)) /\ (forall fuel x, compare_regexps s1 s2 fuel = Some x -> x = Ok r) /\
      relation r (fun w => ~ In epsilon w /\ L1 w) (fun w => ~ In epsilon w /\ L2 w).
  Proof.
    intros C1 C2. destruct (dfa_of s1 L1 C1) as (b1 & d1 & E1 & A1). destruct (dfa_of s2 L2 C2) as (b2 & d2 & E2 & A2).
    set (b3 := (A_num_edges d1 + 1) * (A_num_edges d2 + 1) + 2).
    destruct (C43_deterministic_inclusion d1 d2 ord b3 OI (le_n _)) as (r & ER & R).
    assert (I12 : included d1 d2 <-> subset (fun w => ~ In epsilon w /\ L1 w) (fun w => ~ In epsilon w /\ L2 w)) by (unfold included, subset; split; intros H w X; apply A2, H, A1, X || apply A2, H, A1 in X; auto).
    assert (I21 : included d2 d1 <-> subset (fun w => ~ In epsilon w /\ L2 w) (fun w => ~ In epsilon w /\ L1 w)) by (unfold included, subset; split; intros H w X; apply A1, H, A2, X || apply A1, H, A2 in X; auto).
    assert (X : compare_regexps s1 s2 (b1 + b2 + b3) = Some (Ok r)).
    { unfold compare_regexps. rewrite E1, E2 by lia. rewrite (inclusion_mono d1 d2 b3 (b1 + b2 + b3) r ltac:(lia) ER). reflexivity. }
    exists r. split; [eauto|]. split.
    - intros fuel x Y. apply (compare_mono _ _ _ (fuel + (b1 + b2 + b3))) in X; [|lia]. apply (compare_mono _ _ _ (fuel + (b1 + b2 + b3))) in Y; [|lia]. congruence.
    - unfold relation. rewrite <- I12, <- I21. exact R.
  Qed.

  (** C95, full statement (false, see C95_compare_refuted): for every two expressions, comparing their automata gives
      the relation of their languages. It holds for the [safe] expressions (see C28_compile_partial): the comparison
      terminates, whenever it does the result is the same, and this result tells how the two languages compare. *)
  Theorem C95_compare_partial r1 r2 : well_formed alphabet r1 -> safe r1 = true -> well_formed alphabet r2 -> safe r2 = true ->
    exists r, (exists fuel, compare_regexps (show r1) (show r2) fuel = Some (Ok r)) /\ (forall fuel x, compare_regexps (show r1) (show r2) fuel = Some x -> x = Ok r) /\
      relation r (fun w => ~ In epsilon w /\ denote alphabet r1 w) (fun w => ~ In epsilon w /\ denote alphabet r2 w).
  Proof. intros W1 S1 W2 S2. apply compare_languages; apply C28_compile_partial; assumption. Qed.
  (** For the other expressions (as in C28_compile_exact_partial): the languages compared are those of the automata. *)
  Theorem C95_compare_exact_partial r1 r2 q1 q2 : well_formed alphabet r1 -> actual alphabet r1 = Some q1 -> well_formed alphabet r2 -> actual alphabet r2 = Some q2 ->
    exists r, (exists fuel, compare_regexps (show r1) (show r2) fuel = Some (Ok r)) /\ (forall fuel x, compare_regexps (show r1) (show r2) fuel = Some x -> x = Ok r) /\
      relation r (fun w => ~ In epsilon w /\ qL q1 w) (fun w => ~ In epsilon w /\ qL q2 w).
  Proof. intros W1 S1 W2 S2. apply compare_languages; eapply C28_compile_exact_partial; eassumption. Qed.
  (** Thus one run which finds 0 proves that two expressions have the same words. *)
  Theorem C95_equal r1 r2 fuel : well_formed alphabet r1 -> safe r1 = true -> well_formed alphabet r2 -> safe r2 = true ->
    compare_regexps (show r1) (show r2) fuel = Some (Ok (Some 0%Z)) -> forall w, ~ In epsilon w -> (denote alphabet r1 w <-> denote alphabet r2 w).
  Proof.
    intros W1 S1 W2 S2 E w NE. destruct (C95_compare_partial r1 r2 W1 S1 W2 S2) as (r & _ & U & (R & _)). apply U in E. injection E as <-.
    destruct (proj1 R eq_refl) as [I J]. split; intros X; [apply (I w)|apply (J w)]; auto.
  Qed.
End C95.

Definition ids : set_order (list nat) := fun _ l => l.
Definition compare (s1 s2 : string) : option (res (option Z)) := compare_regexps idc idn [] false ids idc idc (lit s1) (lit s2) 100.
(** (ba* )? and a|(ba* ): the result says that the first contains the second, but it does not contain a. *)
Theorem C95_compare_refuted : exists r1 r2, well_formed [] r1 /\ well_formed [] r2 /\
  compare_regexps idc idn [] false ids idc idc (show r1) (show r2) 100 = Some (Ok (Some (-1)%Z)) /\
  exists w, ~ In epsilon w /\ denote [] r2 w /\ ~ denote [] r1 w.
Proof.
  set (x := Grp (Cat (Chr (ch "b")) (Star (Chr (ch "a"))))). exists (Opt x), (Alt (Chr (ch "a")) x).
  assert (NI : forall c l, mem c l = false -> ~ In (c : char) l) by (intros c l; apply mem_false).
  split; [|split]; [cbn; repeat split; try lia; try discriminate; apply NI; reflexivity..|]. split; [vm_compute; reflexivity|].
  exists (lit "a"). split; [intros [X|[]]; discriminate|]. split; [left; exists (ch "a"); split; reflexivity|].
  intros [X|(u & v & E & (a & -> & <-) & _)]; [discriminate X|discriminate E].
Qed.

(** (a|b)* and (a*b* )* have the same words *)
Definition ex1 : rexp := Star (Grp (Alt (Chr (ch "a")) (Chr (ch "b")))).
Definition ex2 : rexp := Star (Grp (Cat (Star (Chr (ch "a"))) (Star (Chr (ch "b"))))).
Example C95_example : show ex1 = lit "(a|b)*" /\ show ex2 = lit "(a*b*)*" /\ forall w, ~ In epsilon w -> (denote [] ex1 w <-> denote [] ex2 w).
Proof.
  split; [reflexivity|]. split; [reflexivity|].
  assert (NI : forall c l, mem c l = false -> ~ In (c : char) l) by (intros c l; apply mem_false).
  assert (V : forall X (H : EqDec X), valid_order (fun (_ : nat) (l : list X) => l)) by (intros X HX n l; apply Permutation_refl).
  apply (C95_equal idc idn [] (V _ _) (V _ _) false ids idc idc (V _ _) (V _ _) (V _ _) ex1 ex2 100); try reflexivity; cbn; repeat split; try lia; try discriminate; apply NI; reflexivity.
Qed.
Example C95_example2 : compare "a+" "a*" = Some (Ok (Some 1%Z)) /\ compare "a*|b" "a+" = Some (Ok (Some (-1)%Z)) /\ compare "a?b" "a*" = Some (Ok None) /\
  compare "[z-a]" "a" = Some (Raise ValueError).
Proof. vm_compute. repeat split; reflexivity. Qed.
Print Assumptions C95_compare_partial.
Print Assumptions C95_compare_exact_partial.
Print Assumptions C95_equal.
Print Assumptions C95_compare_refuted.
