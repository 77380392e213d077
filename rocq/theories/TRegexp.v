(** Theorems C28, C29: regular expressions and character classes. *)
From Coq Require Import String.
From Verif Require Import Str BaseProofs Graph Automaton AutomatonSpec Nfa NfaSpec NfaProofs NfaProofs2 Thompson ThompsonSpec ThompsonProofs ThompsonProofs3 ThompsonProofs4 TThompson ShuntingYard Regexp RegexpSpec RegexpProofs RegexpProofs2 RegexpProofs3 RegexpProofs4.
Open Scope string_scope.
Open Scope nat_scope.
Open Scope list_scope.

(** C29: parse_bracket returns the characters of the class, for all lists of items and all alphabets; the empty alphabet stands
    for the printable characters. *)
Theorem C29_parse_bracket alphabet neg l : class_ok neg l ->
  exists chars, parse_bracket (class_text neg l) alphabet = Ok chars /\ forall x, In x chars <-> in_class alphabet neg l x.
Proof. exact (parse_bracket_class alphabet neg l). Qed.
Theorem C29_default_alphabet neg l : class_ok neg l ->
  exists chars, parse_bracket (class_text neg l) [] = Ok chars /\
    forall x, In x chars <-> if neg then printable x /\ ~ Exists (in_item x) l else Exists (in_item x) l.
Proof.
  intros OK. destruct (parse_bracket_class [] neg l OK) as (chars & E & H). exists chars. split; [exact E|]. intros x. rewrite (H x).
  unfold in_class. cbn [alphabet_of]. destruct neg; [|reflexivity]. rewrite default_printable. reflexivity.
Qed.
(** A reversed range is an error. *)
Theorem C29_reversed_range alphabet lo hi : lo <> ch "^" -> lo <> ch "\" -> (hi < lo)%N ->
  parse_bracket (class_text false [Range lo hi]) alphabet = Raise ValueError.
Proof.
  intros N1 N2 LT. change (class_text false [Range lo hi]) with [ch "["; lo; ch "-"; hi; ch "]"]. unfold parse_bracket, parse_bracket_with. cbv zeta.
  match goal with |- (if ?c then _ else _) = _ => change c with false end. cbv iota.
  match goal with |- (if ?c then _ else _) = _ => change c with false end. cbv iota.
  rewrite (proj2 (eqb_neq lo (ch "^")) N1). cbn [bracket_loop]. rewrite (proj2 (eqb_neq lo (ch "\")) N2).
  match goal with |- context [eqb (ch "-") (ch "-")] => change (eqb (ch "-") (ch "-")) with true end. cbv iota.
  rewrite (proj2 (N.ltb_lt hi lo) LT). reflexivity.
Qed.
(** What is not between brackets, or has nothing between them, is an error. *)
Theorem C29_not_a_class alphabet s : s <> [] -> (hd 0%N s <> ch "[" \/ last s 0%N <> ch "]" \/ List.length s < 3) -> parse_bracket s alphabet = Raise ValueError.
Proof.
  intros NE H. destruct s as [|c s]; [contradiction|]. unfold parse_bracket, parse_bracket_with. cbv zeta.
  assert (EL : last (c :: s) c = last (c :: s) 0%N) by (clear; revert c; induction s as [|d s IH]; intros c; [reflexivity|]; change (last (d :: s) c = last (d :: s) 0%N); clear; revert d; induction s as [|e s IH]; intros d; [reflexivity|exact (IH e)]).
  cbn [hd] in H. destruct H as [H|[H|H]].
  - rewrite (proj2 (eqb_neq c (ch "[")) H). reflexivity.
  - destruct (negb _) eqn:NB; [reflexivity|]. exfalso. apply negb_false_iff, andb_true_iff in NB. destruct NB as [_ NB]. apply (proj1 (eqb_eq _ _)) in NB. apply H. exact (eq_trans (eq_sym EL) NB).
  - destruct (negb _); [reflexivity|]. match goal with |- (if ?b then _ else _) = _ => destruct b eqn:LB; [reflexivity|] end. exfalso. apply Nat.ltb_ge in LB. exact (Nat.lt_irrefl _ (Nat.lt_le_trans _ _ _ H LB)).
Qed.
(** a hyphen in the middle is not an item: [[^a-y-\d]] is not of this form *)
Example C29_example : class_ok true [Range (ch "a") (ch "y"); One (ch "-"); EscI (ch "d")] -> False.
Proof. intros ((_ & F) & _). inversion F as [|? ? X]. apply X. reflexivity. Qed.
Example C29_example2 : let l := [One (ch "-"); Range (ch "b") (ch "z"); EscI (ch "d")] in
  class_ok true l /\ class_text true l = lit "[^-b-z\d]" /\
  match parse_bracket (class_text true l) (lit "abc19-X") with Ok chars => eqb (sof chars) (lit "aX") | _ => false end = true.
Proof.
  cbv zeta. split; [|vm_compute; split; reflexivity]. split; [|discriminate].
  split; repeat constructor; try discriminate; try (vm_compute; tauto); cbv; discriminate.
Qed.
Example C29_example3 : parse_bracket (lit "[z-a]") [] = Raise ValueError.
Proof. apply (C29_reversed_range [] (ch "z") (ch "a")); [discriminate|discriminate|reflexivity]. Qed.

Section C28.
  Variables (ordc : set_order char) (ordn : set_order nat) (alphabet : list char).
  Hypothesis OC : valid_order ordc.
  Hypothesis ON : valid_order ordn.

  (** C28, full statement (false, see C28_compile_refuted): for every [r],
      [computes epsilon (thompson_compile_nfa ordc ordn alphabet (show r)) (denote alphabet r)].
      What holds: it does when [r] is [safe], i.e. without the uses of ? and {0,n} which C27_zero_or_one_refuted and
      C27_repetition_range_refuted are about, and when no class contains the Greek epsilon. *)
  Theorem C28_compile_partial r : well_formed alphabet r -> safe r = true ->
    computes epsilon (thompson_compile_nfa ordc ordn alphabet (show r)) (denote alphabet r).
  Proof.
    intros W S. destruct (safe_denote alphabet r W S) as (q & A & G). destruct (compile_show ordc ordn alphabet OC ON r q W A) as (x & E & Sx).
    eapply sem_computes; [exact E|exact Sx|]. intros w _. apply (g_L _ _ _ G).
  Qed.
  (** For every other expression, except those with x{0,n} where x begins with an alternative, a star or a plus: the
      language of the resulting automaton. *)
  Theorem C28_compile_exact_partial r q : well_formed alphabet r -> actual alphabet r = Some q ->
    computes epsilon (thompson_compile_nfa ordc ordn alphabet (show r)) (qL q).
  Proof.
    intros W A. destruct (compile_show ordc ordn alphabet OC ON r q W A) as (x & E & Sx).
    eapply sem_computes; [exact E|exact Sx|]. intros w _. reflexivity.
  Qed.
  (** the empty expression *)
  Theorem C28_empty : computes epsilon (thompson_compile_nfa ordc ordn alphabet []) leps.
  Proof.
    eexists. split; [reflexivity|]. split; [exact (unit_good epsilon)|]. eapply sw_trans; [apply acc_L, unit_good|].
    intros w _. etransitivity; [exact (unit_runs epsilon 0 0 w)|]. unfold leps. tauto.
  Qed.
  (** compile_dfa *)
  Theorem C28_compile_dfa_partial r complete opop osym : well_formed alphabet r -> safe r = true -> valid_order opop -> valid_order osym ->
    exists bound, forall fuel, bound <= fuel -> exists d, compile_dfa ordc ordn alphabet (show r) complete opop osym fuel = Some (Ok d) /\
      forall w, ~ In epsilon w -> (A_accepts d w = true <-> denote alphabet r w).
  Proof.
    intros W S OP OS. destruct (C28_compile_partial r W S) as (x & E & G & HL). unfold compile_dfa. rewrite E.
    exists (2 ^ List.length (universe (fst (fst x))) + 1). intros fuel L. destruct (moore_run (fst (fst x)) complete opop osym OP OS fuel L) as (d & Ed & Hd & _).
    rewrite Ed. exists d. split; [reflexivity|]. intros w NE. rewrite <- (HL w NE).
    assert (EQ : nf_eps (fst (fst x)) = epsilon) by (destruct x as [[g q0] f]; apply (p_eps _ _ _ _ (proj1 G))).
    rewrite EQ in Hd. rewrite (Hd w NE). unfold accepted.
    destruct (N_accepts_spec (fst (fst x)) w) as (b & Eb & Hb); [rewrite EQ; exact NE|]. rewrite Eb. rewrite EQ in Hb. rewrite <- Hb.
    split; [intros ->; reflexivity|]. intros X. injection X as ->. reflexivity.
  Qed.
End C28.

Definition idc : set_order char := fun _ l => l.
Definition idn : set_order nat := fun _ l => l.
(** compile_nfa, then accepts *)
Definition nfa_matches (r w : str) : option bool :=
  match compile_nfa idc idn [] r with Ok g => N_accepts g w | Raise _ => None end.
Definition matches (r w : string) : option bool := nfa_matches (lit r) (lit w).

(** (ba* )? accepts a; (a|b){0,2} rejects ab (and a); a range containing the Greek epsilon accepts the empty word. *)
Theorem C28_compile_refuted : exists r w, well_formed [] r /\ ~ In epsilon w /\
  nfa_matches (show r) w = Some true /\ ~ denote [] r w.
Proof.
  exists (Opt (Grp (Cat (Chr (ch "b")) (Star (Chr (ch "a")))))), (lit "a"). split; [|split; [intros [X|[]]; discriminate|]].
  - cbn. repeat split; try lia; try discriminate; intros X; repeat (destruct X as [X|X]; [discriminate|]); destruct X.
  - split; [vm_compute; reflexivity|]. cbn [denote]. intros [X|(u & v & E & (a & -> & <-) & _)]; [discriminate X|discriminate E].
Qed.
Theorem C28_repetition_refuted : exists r w, well_formed [] r /\ ~ In epsilon w /\
  nfa_matches (show r) w = Some false /\ denote [] r w.
Proof.
  exists (Rep (Grp (Alt (Chr (ch "a")) (Chr (ch "b")))) (Between (lit "0") (lit "2"))), (lit "ab"). split; [|split; [intros [X|[X|[]]]; discriminate|]].
  - cbn. repeat split; try lia; try discriminate; try (intros X; repeat (destruct X as [X|X]; [discriminate|]); destruct X);
      repeat constructor; cbv; discriminate.
  - split; [vm_compute; reflexivity|]. exists 2. split; [vm_compute; lia|]. split; [vm_compute; lia|].
    exists (lit "a"), (lit "b"). split; [reflexivity|]. split; [left; exists (ch "a"); split; reflexivity|].
    exists (lit "b"), []. split; [reflexivity|]. split; [right; exists (ch "b"); split; reflexivity|reflexivity].
Qed.
(** a class with the Greek epsilon: [[α-ω]] accepts the empty word *)
Theorem C28_epsilon_refuted : nfa_matches (class_text false [Range 945%N 969%N]) [] = Some true /\
  ~ denote [] (Cls false [Range 945%N 969%N]) [].
Proof. split; [vm_compute; reflexivity|]. intros (a & X & _). discriminate. Qed.

(** the theorem on [[a-c\d]+x{2,3}|(\.y?)*] *)
Definition ex : rexp :=
  Alt (Cat (Plus (Cls false [Range (ch "a") (ch "c"); EscI (ch "d")])) (Rep (Chr (ch "x")) (Between (lit "2") (lit "3"))))
      (Star (Grp (Cat (Esc (ch ".")) (Opt (Chr (ch "y")))))).
Example C28_example : show ex = lit "[a-c\d]+x{2,3}|(\.y?)*" /\ well_formed [] ex /\ safe ex = true /\
  map (matches "[a-c\d]+x{2,3}|(\.y?)*") ["b7xx"; ".y..y"; ""; "b7x"; "y"] = [Some true; Some true; Some true; Some false; Some false].
Proof.
  split; [reflexivity|]. split; [|split; [reflexivity|vm_compute; reflexivity]].
  assert (X : ~ in_class [] false [Range (ch "a") (ch "c"); EscI (ch "d")] epsilon).
  { intros X. inversion X as [? ? Y|? ? Y]; subst; [destruct Y as [_ Y]; vm_compute in Y; apply Y; reflexivity|].
    inversion Y as [? ? Z|? ? Z]; subst; [destruct Z as [_ Z]; vm_compute in Z; apply Z; reflexivity|inversion Z]. }
  assert (Y : class_ok false [Range (ch "a") (ch "c"); EscI (ch "d")]).
  { split; [split|]; [|repeat constructor; discriminate|intros _; discriminate]. constructor; [split; [discriminate|vm_compute; discriminate]|]. constructor; [|constructor]. apply mem_spec. vm_compute. reflexivity. }
  assert (NI : forall c l, mem c l = false -> ~ In (c : char) l) by (intros c l; apply mem_false).
  cbn [ex well_formed level bounds_ok]. repeat split; try lia; try apply X; try apply Y; try discriminate; try (apply NI; vm_compute; reflexivity).
  all: try (repeat constructor; cbv; discriminate).
Qed.
Example C28_example_exact : exists q, actual [] (Opt (Grp (Cat (Chr (ch "b")) (Star (Chr (ch "a")))))) = Some q.
Proof. eexists. reflexivity. Qed.
Print Assumptions C28_compile_partial.
Print Assumptions C28_compile_exact_partial.
Print Assumptions C28_empty.
Print Assumptions C28_compile_dfa_partial.
Print Assumptions C28_compile_refuted.
Print Assumptions C28_repetition_refuted.
Print Assumptions C28_epsilon_refuted.
Print Assumptions C29_parse_bracket.
Print Assumptions C29_default_alphabet.
Print Assumptions C29_reversed_range.
Print Assumptions C29_not_a_class.
Example C29_example4 : parse_bracket (lit "[ab") [] = Raise ValueError /\ parse_bracket (lit "ab]") [] = Raise ValueError /\ parse_bracket (lit "[]") [] = Raise ValueError.
Proof. split; [|split]; apply C29_not_a_class; try discriminate; [right; left; discriminate|left; discriminate|right; right; cbn; lia]. Qed.
