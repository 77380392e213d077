(** Theorem C96 on regular expressions: the minimal automaton of a regular expression. *)
From Coq Require Import String.
From Verif Require Import Str BaseProofs Graph Automaton AutomatonSpec Nfa NfaSpec NfaProofs NfaProofs2 Thompson ThompsonSpec ThompsonProofs ThompsonProofs3 ThompsonProofs4 TThompson ShuntingYard Regexp RegexpSpec RegexpProofs RegexpProofs2 RegexpProofs3 RegexpProofs4 TRegexp Hopcroft MinSpec MooreInc MooreIncProofs TMooreMin.
From Verif Require Import Base.
Open Scope string_scope.
Open Scope nat_scope.
Open Scope list_scope.

Section C96.
  Variables (ordc : set_order char) (ordn : set_order nat) (alphabet : list char).
  Hypothesis (OC : valid_order ordc) (ON : valid_order ordn).
  Variables (opop : set_order (list nat)) (osym : set_order char).
  Hypothesis (OP : valid_order opop) (OS : valid_order osym).
  Variables (ord_w : set_order (list nat)) (ord_p : nat -> set_order (list nat)) (ord_a : set_order char) (ord_l : set_order (list nat)) (ord_q : list nat -> list nat).
  Hypothesis (OW : valid_order ord_w) (OPP : forall n, valid_order (ord_p n)) (OA : valid_order ord_a) (OL : valid_order ord_l) (OQ : forall B, Permutation (ord_q B) B).

  (** hopcroft_minimize(moore_determination(compile_nfa(s), dfa=IncidenceAutomaton())) *)
  Definition minimal_dfa (s : str) (fuel : nat) : option (res (iaut char)) :=
    match thompson_compile_nfa ordc ordn alphabet s with
    | Raise e => Some (Raise e)
    | Ok x =>
        match imoore_determination (fst (fst x)) true opop osym fuel with
        | Some (d, Ok _) =>
            match hopcroft_minimize fuel d ord_w ord_p ord_a ord_l ord_q with
            | Some (d', Ok _) => Some (Ok d')
            | Some (_, Raise e) => Some (Raise e)
            | None => None
            end
        | Some (_, Raise e) => Some (Raise e)
        | None => None
        end
    end.

  (** the words of the automaton of an expression *)
  Lemma spelled_accepted x w : good epsilon x -> (spelled (ntrans (fst (fst x))) (nf_eps (fst (fst x))) (nf_init (fst (fst x))) (nf_final (fst (fst x))) w <-> ~ In epsilon w /\ accepted x w).
  Proof.
    intros G. assert (EQ : nf_eps (fst (fst x)) = epsilon) by (destruct x as [[g q0] f]; apply (p_eps _ _ _ _ (proj1 G))). unfold accepted. split.
    - intros (q & t & I & R & F). assert (NE : ~ In epsilon w) by (rewrite <- EQ; apply alphabet_eps, (nrun_over _ _ _ _ R)). split; [exact NE|].
      destruct (N_accepts_spec (fst (fst x)) w) as (c & Eb & Hb); [rewrite EQ; exact NE|]. rewrite Eb. f_equal. apply Hb. exists q, t. auto.
    - intros [NE AC]. destruct (N_accepts_spec (fst (fst x)) w) as (c & Eb & Hb); [rewrite EQ; exact NE|]. rewrite Eb in AC. injection AC as ->. destruct (proj1 Hb eq_refl) as (q & t & X). exists q, t. exact X.
  Qed.

  (** C96 for the [safe] expressions (see C28_compile_partial). *)
  Theorem C96_regexp_partial r : well_formed alphabet r -> safe r = true ->
    exists x, thompson_compile_nfa ordc ordn alphabet (show r) = Ok x /\
      let S := N_alphabet (fst (fst x)) in
      let L := fun w => ~ In epsilon w /\ denote alphabet r w in
      (forall w, L w -> over S w) /\
      ((exists w, L w) -> (exists w, over S w /\ ~ L w) ->
        exists bound, forall fuel, bound <= fuel -> exists d q, minimal_dfa (show r) fuel = Some (Ok d) /\ A_initial (ia_base d) = Some q /\ wf_dfa (ia_dfa d q) /\ complete_over S (ia_dfa d q) /\
          (forall w, A_accepts (ia_base d) w = true <-> L w) /\
          forall m, wf_dfa m -> complete_over S m -> (forall w, language m w <-> L w) ->
            length (IA_vertices d) <= length (d_states m) /\ (length (IA_vertices d) = length (d_states m) -> isomorphic (ia_dfa d q) m)) /\
      (S <> [] -> (forall w, ~ L w) \/ (forall w, over S w -> L w) -> exists bound, forall fuel, bound <= fuel -> minimal_dfa (show r) fuel = Some (Raise TypeError)).
  Proof using OC ON OP OS OW OPP OA OL OQ.
    intros W SF. destruct (C28_compile_partial ordc ordn alphabet OC ON r W SF) as (x & E & G & HL). exists x. split; [exact E|]. intros S L.
    assert (LL : forall w, spelled (ntrans (fst (fst x))) (nf_eps (fst (fst x))) (nf_init (fst (fst x))) (nf_final (fst (fst x))) w <-> L w).
    { intros w. rewrite (spelled_accepted x w G). unfold L. split; intros [NE X]; (split; [exact NE|]); apply (HL w NE), X. }
    split; [|split].
    - intros w X. apply LL in X. destruct X as (q & t & _ & R & _). apply (nrun_over _ _ _ _ R).
    - intros [w1 H1] (w2 & O2 & H2). exists (2 ^ length (universe (fst (fst x))) + 1). intros fuel LF.
      destruct (minimal_of opop osym OP OS ord_w ord_p ord_a ord_l ord_q OW OPP OA OL OQ (fst (fst x)) fuel LF) as (d & d' & q & E1 & E2 & Q & W' & C & HA & M).
      + exists w1. apply LL, H1.
      + exists w2. split; [exact O2|]. intros X. apply H2, LL, X.
      + exists d', q. unfold minimal_dfa. rewrite E, E1, E2. split; [reflexivity|]. split; [exact Q|]. split; [exact W'|]. split; [exact C|]. split; [intros w; rewrite HA; apply LL|].
        intros m Wm Cm Lm. apply M; [exact Wm|exact Cm|]. intros w. rewrite Lm. symmetry. apply LL.
    - intros NS HH. exists (2 ^ length (universe (fst (fst x))) + 1). intros fuel LF. destruct (crash_of opop osym OP OS ord_w ord_p ord_a ord_l ord_q OW OPP OA (fst (fst x)) fuel LF NS) as (d & E1 & E2).
      + destruct HH as [HH|HH]; [left|right]; intros w; [intros X; apply (HH w), LL, X|intros O; apply LL, HH, O].
      + unfold minimal_dfa. rewrite E, E1, E2. reflexivity.
  Qed.
End C96.
Print Assumptions C96_minimal_partial.
Print Assumptions C96_crash.
Print Assumptions C96_regexp_partial.

Definition idb : set_order (list nat) := fun _ l => l.
Definition minimal (s : string) : option (res (iaut char)) := minimal_dfa idc idn [] idb idc idb (fun _ => idb) idc idb (fun B => B) (lit s) 100.
Definition size (s : string) : option (res nat) := match minimal s with Some (Ok d) => Some (Ok (length (IA_vertices d))) | Some (Raise e) => Some (Raise e) | None => None end.
(** The expression a* has no minimal automaton according to the library: TypeError. *)
Theorem C96_crash_refuted : exists r, well_formed [] r /\ safe r = true /\
  minimal_dfa idc idn [] idb idc idb (fun _ => idb) idc idb (fun B => B) (show r) 100 = Some (Raise TypeError).
Proof.
  exists (Star (Chr (ch "a"))). assert (NI : forall c l, mem c l = false -> ~ In (c : char) l) by (intros c l; apply mem_false).
  split; [cbn; repeat split; try lia; try discriminate; apply NI; reflexivity|]. split; [reflexivity|]. vm_compute. reflexivity.
Qed.
Print Assumptions C96_crash_refuted.
Example C96_example : map size ["(a|b)*a"; "(a|b)*a(a|b)"; "ab|ba"; "a*"; "(a|b)+"; "[z-a]"] =
  [Some (Ok 2); Some (Ok 4); Some (Ok 5); Some (Raise TypeError); Some (Ok 2); Some (Raise ValueError)].
Proof. vm_compute. reflexivity. Qed.
(** the hypotheses of C96_regexp_partial for (a|b)*a *)
Definition ex_min : rexp := Cat (Star (Grp (Alt (Chr (ch "a")) (Chr (ch "b"))))) (Chr (ch "a")).
Example C96_example_hyp : show ex_min = lit "(a|b)*a" /\ well_formed [] ex_min /\ safe ex_min = true /\
  denote [] ex_min (lit "a") /\ ~ denote [] ex_min [] /\ ~ In epsilon (lit "a").
Proof.
  assert (NI : forall c l, mem c l = false -> ~ In (c : char) l) by (intros c l; apply mem_false).
  split; [reflexivity|]. split; [cbn; repeat split; try lia; try discriminate; apply NI; reflexivity|]. split; [reflexivity|].
  split; [exists [], (lit "a"); split; [reflexivity|]; split; [exists 0; reflexivity|exists (ch "a"); split; reflexivity]|].
  split; [|intros [X|[]]; discriminate]. intros (u & v & E & _ & (a & -> & _)). destruct u; discriminate E.
Qed.
