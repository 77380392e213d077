(** Theorems C134: the number of states of the automaton of a regular expression. *)
From Coq Require Import String.
From Verif Require Import Str Graph Automaton Nfa NfaSpec Thompson ThompsonSpec Regexp RegexpSpec ThompsonSizeSpec ThompsonSizeProofs GraphProofs AutomatonProofs NfaProofs NfaProofs2 TMoore Base BaseProofs.
From Verif Require TRegexpEq.
Open Scope string_scope.
Open Scope nat_scope.
Open Scope list_scope.

(** The automaton has exactly [states r] states, numbered from 0; one is initial, one is final, and they are the ones returned. *)
Theorem C134_states ordc ordn alphabet r : valid_order ordc -> valid_order ordn -> well_formed alphabet r -> zero_repeats_ok r = true ->
  exists g q0 f, thompson_compile_nfa ordc ordn alphabet (show r) = Ok (g, q0, f) /\ N_vertices g = seq 0 (states r) /\
    nf_init g = [q0] /\ q0 < states r /\ f < states r /\ (forall v, nf_final g v = true <-> v = f) /\
    (forall q a q', ntrans g q a q' -> q < states r /\ q' < states r).
Proof.
  intros OC ON W Z. destruct (show_sized ordc ordn alphabet OC ON r W Z) as ([[g q0] f] & E & ((P & F) & (N & Hq & Hf) & L)). cbn [fst] in L. rewrite L in *.
  exists g, q0, f. destruct P as [PW PV PT PI PQ PF PFF PE]. repeat (split; [assumption|]). split.
  - intros v. split; [apply PFF|]. intros ->. exact F.
  - intros q a q' X. apply PT in X. rewrite N, !in_seq in X. lia.
Qed.

(** At most two states per character of an expression without {..}. *)
Theorem C134_linear ordc ordn alphabet r : valid_order ordc -> valid_order ordn -> well_formed alphabet r -> without_bounds r = true ->
  exists g q0 f, thompson_compile_nfa ordc ordn alphabet (show r) = Ok (g, q0, f) /\ List.length (N_vertices g) <= 2 * List.length (show r).
Proof.
  intros OC ON W Z. assert (ZR : zero_repeats_ok r = true).
  { clear W. revert Z. induction r; cbn [without_bounds zero_repeats_ok]; intros Z; try (apply andb_true_iff in Z; destruct Z as [Za Zb]; rewrite IHr1, IHr2 by assumption); auto; discriminate. }
  destruct (C134_states ordc ordn alphabet r OC ON W ZR) as (g & q0 & f & E & V & _). exists g, q0, f. split; [exact E|]. rewrite V, seq_length. apply states_show, Z.
Qed.

(** The determinised automaton has at least one and at most 2^n states, for n = [states r]; fuel for as many states is enough. *)
Theorem C134_dfa ordc ordn alphabet r complete opop osym : valid_order ordc -> valid_order ordn -> well_formed alphabet r -> zero_repeats_ok r = true ->
  valid_order opop -> valid_order osym ->
  exists d, (forall fuel, 2 ^ states r + 1 <= fuel -> compile_dfa ordc ordn alphabet (show r) complete opop osym fuel = Some (Ok d)) /\
    1 <= List.length (A_vertices d) <= 2 ^ states r.
Proof.
  intros OC ON W Z OP OS. destruct (show_sized ordc ordn alphabet OC ON r W Z) as ([[g q0] f] & E & ((P & F) & (N & Hq & Hf) & L)). cbn [fst] in L. rewrite L in *.
  destruct P as [PW PV PT PI PQ PF PFF PE]. unfold compile_dfa. rewrite E. cbn [fst].
  assert (U : forall x, In x (universe g) -> In x (seq 0 (states r))).
  { intros x G. unfold universe in G. apply (proj1 (In_sof _ _)) in G. apply in_app_iff in G. destruct G as [G|G].
    - rewrite PI in G. destruct G as [<-|[]]. apply in_seq. lia.
    - apply in_map_iff in G. destruct G as (e & <- & Ie). destruct e as [u v [a k]]. cbn.
      assert (T : ntrans g u a v) by (apply In_N_edges_ntrans; [exact PW|exists k; exact Ie]). apply PT in T. rewrite N in T. apply T. }
  assert (LU : List.length (universe g) <= states r).
  { rewrite <- (seq_length (states r) 0). apply NoDup_incl_length; [apply NoDup_sof|exact U]. }
  assert (LP : 2 ^ List.length (universe g) <= 2 ^ states r) by (apply Nat.pow_le_mono_r; lia).
  destruct (moore_run g complete opop osym OP OS (2 ^ states r + 1)) as (d & Ed & _ & _ & _ & m & q0s & I & _ & I0 & _); [lia|].
  exists d. split.
  - intros fuel LF. assert (Ed' : moore_determination g complete opop osym fuel = Some (d, Ok tt)) by (eapply TRegexpEq.moore_mono; [exact LF|exact Ed]). rewrite Ed'. reflexivity.
  - rewrite (m_V _ _ _ _ _ _ _ I), seq_length. split.
    + destruct m; [destruct I0|cbn; lia].
    + etransitivity; [|exact LP]. rewrite <- (map_length fst). apply distinct_bound; [apply (m_dist _ _ _ _ _ _ _ I)|].
      intros k x Ik Ix. apply in_map_iff in Ik. destruct Ik as ([k' q] & <- & Ik). destruct (m_good _ _ _ _ _ _ _ I _ _ Ik) as [_ G]. exact (G x Ix).
Qed.

(** The hypothesis on x{0} matters: (a|b){0} returns an initial state which is not a state, so that (a|b){0}? has two states
    which are not numbered 0 and 1, and c(a|b){0} is an error. *)
Theorem C134_zero_repeats : exists r1 r2, well_formed [] r1 /\ well_formed [] r2 /\ zero_repeats_ok r1 = false /\ zero_repeats_ok r2 = false /\
  match thompson_compile_nfa (fun _ l => l) (fun _ l => l) [] (show r1) with Ok (g, q0, f) => N_vertices g = [0; 4] /\ q0 = 4 | _ => False end /\
  thompson_compile_nfa (fun _ l => l) (fun _ l => l) [] (show r2) = Raise KeyError.
Proof.
  set (x := Rep (Grp (Alt (Chr (ch "a")) (Chr (ch "b")))) (Exactly (lit "0"))). exists (Opt x), (Cat (Chr (ch "c")) x).
  assert (WX : well_formed [] x).
  { repeat split; try discriminate; try (cbv; intuition discriminate); try (cbn; lia). repeat constructor; cbv; discriminate. }
  split; [split; [exact WX|cbn; lia]|]. split; [split; [split; [cbv; intuition discriminate|discriminate]|]; split; [exact WX|cbn; lia]|].
  split; [reflexivity|]. split; [reflexivity|]. split; vm_compute; auto.
Qed.

(** [a-c](x|yz)*d{2,3} : 2 + (2 + 4 + 2 + 2) + 3 * 2 states *)
Definition c134_r : rexp :=
  Cat (Cat (Cls false [Range (ch "a") (ch "c")]) (Star (Grp (Alt (Chr (ch "x")) (Cat (Chr (ch "y")) (Chr (ch "z")))))))
      (Rep (Chr (ch "d")) (Between (lit "2") (lit "3"))).
Example C134_example : show c134_r = lit "[a-c](x|yz)*d{2,3}" /\ well_formed [] c134_r /\ zero_repeats_ok c134_r = true /\ states c134_r = 18 /\
  match thompson_compile_nfa (fun _ l => l) (fun _ l => l) [] (show c134_r) with Ok (g, q0, f) => N_vertices g = seq 0 18 /\ q0 = 0 | _ => False end.
Proof.
  split; [reflexivity|]. split; [|split; [reflexivity|split; [reflexivity|vm_compute; auto]]].
  repeat split; try discriminate; try (cbv; intuition discriminate); try (cbn; lia).
  all: try (repeat constructor; cbv; discriminate).
  intros X. cbv in X. inversion X as [? ? Y|? ? Y]; [exact (proj2 Y eq_refl)|inversion Y].
Qed.
(** 7 characters, hence at most 14 states *)
Example C134_example2 : let r := Star (Grp (Alt (Chr (ch "x")) (Cat (Chr (ch "y")) (Chr (ch "z"))))) in
  show r = lit "(x|yz)*" /\ well_formed [] r /\ without_bounds r = true /\ states r = 10.
Proof. repeat split; try discriminate; try (cbv; intuition discriminate); cbn; lia. Qed.

Print Assumptions C134_states.
Print Assumptions C134_linear.
Print Assumptions C134_zero_repeats.
Print Assumptions C134_dfa.
(** (x|yz)* has 10 states as an NFA; its DFA has 4 of the at most 1024 *)
Example C134_example3 : let r := Star (Grp (Alt (Chr (ch "x")) (Cat (Chr (ch "y")) (Chr (ch "z"))))) in
  match compile_dfa (fun _ l => l) (fun _ l => l) [] (show r) false (fun _ l => l) (fun _ l => l) 50 with
  | Some (Ok d) => List.length (A_vertices d) = 4 | _ => False end.
Proof. vm_compute. reflexivity. Qed.
