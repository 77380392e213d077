(** Theorems C47 on hopcroft_minimize.py: the automata without transition, and those whose initial state is not one of their vertices. *)
From Verif Require Import Graph GraphProofs Automaton AutomatonSpec AutomatonProofs AutomatonProofs2 Revuz RevuzSpec RevuzProofs RevuzProofs2 Hopcroft HopcroftProofs HopcroftProofs2 MinSpec MinProofs THopcroft Base BaseProofs.

Section A.
  Context {A : Type} {EA : EqDec A}.
  Variables (ord_w : set_order (list nat)) (ord_p : nat -> set_order (list nat)) (ord_a : set_order A) (ord_l : set_order (list nat)) (ord_q : list nat -> list nat).
  Hypothesis (OW : valid_order ord_w) (OP : forall n, valid_order (ord_p n)) (OA : valid_order ord_a) (OL : valid_order ord_l) (OQ : forall B, Permutation (ord_q B) B).

  (** without symbol, the groups are taken one after the other and nothing is split *)
  Lemma drain (g : iaut A) : A_alphabet (ia_base g) = [] -> forall fuel P W, NoDup W -> length W <= fuel ->
    hopcroft_loop fuel g ord_w ord_p ord_a P W = Some (Ok P).
  Proof using OW OA.
    intros NA. induction fuel as [|fuel IH]; intros P W N L.
    - destruct W; [reflexivity|cbn in L; lia].
    - destruct W as [|w W]; [reflexivity|]. cbn [hopcroft_loop]. pose proof (OW fuel (w :: W)) as PW. destruct (ord_w fuel (w :: W)) as [|c l]; [apply Permutation_nil in PW; discriminate|].
      assert (Ic : In c (w :: W)) by (apply (Permutation_in _ PW); left; reflexivity).
      rewrite NA. pose proof (OA fuel []) as PA. apply Permutation_sym, Permutation_nil in PA. rewrite PA. cbn [letters].
      apply IH; [apply NoDup_srem, N|]. pose proof (len_srem c (w :: W) N Ic). cbn [length] in *. lia.
  Qed.
  Lemma groups0_nodup (g : iaut A) : NoDup (groups0 g).
  Proof. apply NoDup_sunion. constructor. Qed.
  Lemma no_edges_alphabet (g : iaut A) s : iarep g s -> IA_edges g = [] -> A_alphabet (ia_base g) = [].
  Proof.
    intros R E. destruct (A_alphabet (ia_base g)) as [|a l] eqn:EL; [reflexivity|].
    assert (I : In a (A_alphabet (ia_base g))) by (rewrite EL; left; reflexivity). apply (obs_alphabet _ _ (proj1 R)) in I. destruct I as (q & r & I).
    apply (Permutation_in _ (Permutation_sym (obs_edges _ _ (proj1 R)))) in I. change (A_edges (ia_base g)) with (IA_edges g) in I. rewrite E in I. destruct I.
  Qed.
  Lemma groups_split (g : iaut A) q : In q (finals g) <-> In q (IA_vertices g) /\ A_is_final (ia_base g) q = true.
  Proof. apply filter_In. Qed.
  Lemma groups_split' (g : iaut A) q : In q (sdiff (IA_vertices g) (finals g)) <-> In q (IA_vertices g) /\ A_is_final (ia_base g) q = false.
  Proof. rewrite In_sdiff, groups_split. destruct (A_is_final (ia_base g) q); intuition discriminate. Qed.
  Lemma groups0_two (g : iaut A) : IA_vertices g <> [] -> groups0 g = [finals g; sdiff (IA_vertices g) (finals g)].
  Proof.
    intros NV. unfold groups0. assert (D : finals g <> sdiff (IA_vertices g) (finals g)).
    { intros E. destruct (IA_vertices g) as [|v V] eqn:EV; [congruence|]. assert (Iv : In v (IA_vertices g)) by (rewrite EV; left; reflexivity).
      rewrite <- EV in E. destruct (A_is_final (ia_base g) v) eqn:F.
      - assert (X : In v (finals g)) by (apply groups_split; auto). rewrite E in X. apply groups_split' in X. destruct X. congruence.
      - assert (X : In v (sdiff (IA_vertices g) (finals g))) by (apply groups_split'; auto). rewrite <- E in X. apply groups_split in X. destruct X. congruence. }
    assert (EQ : sadd (sdiff (IA_vertices g) (finals g)) [finals g] = [finals g; sdiff (IA_vertices g) (finals g)]).
    { unfold sadd. destruct (mem _ [finals g]) eqn:M; [|reflexivity]. apply mem_spec in M. destruct M as [M|[]]. congruence. }
    exact EQ.
  Qed.

  (** C47: the assertion of line 86 fails when the initial state is not a vertex, unless TypeError comes first (C47_crash). *)
  Theorem C47_no_initial n (ops : list (aop A)) fuel : disciplined (aa_init n) ops ->
    let g := fst (runs IA_call (IA_init n) ops) in
    IA_vertices g <> [] -> (forall q, In q (IA_vertices g) -> A_initial (ia_base g) <> Some q) -> length (IA_vertices g) < fuel ->
    IA_edges g = [] \/ (exists q q', In q (IA_vertices g) /\ In q' (IA_vertices g) /\ A_is_final (ia_base g) q = true /\ A_is_final (ia_base g) q' = false) ->
    hopcroft_minimize fuel g ord_w ord_p ord_a ord_l ord_q = Some (g, Raise AssertionError).
  Proof using OW OP OA OL.
    intros D g NV NI LF H. destruct (iarep_runs ops _ _ (iarep_init n) D) as [R _]. fold g in R. set (s := fst (runs ia_step (aa_init n) ops)) in R. clearbody g s.
    assert (G : exists P, hopcroft_agglomerate_states fuel g ord_w ord_p ord_a = Some (Ok P) /\ forall B q, In B P -> In q B -> In q (IA_vertices g)).
    { destruct H as [H|(q & q' & V1 & V2 & F1 & F2)].
      - exists (groups0 g). split.
        + apply drain; [apply (no_edges_alphabet g s R H)|apply groups0_nodup|]. change (length (groups0 g) <= fuel). rewrite groups0_two by exact NV. cbn [length].
          destruct (IA_vertices g); [congruence|cbn [length] in LF; lia].
        + intros B q IB Iq. apply In_groups0 in IB. destruct IB as [-> | ->]; [apply groups_split in Iq|apply groups_split' in Iq]; tauto.
      - destruct (agglomerate_ok g s R fuel ord_w ord_p ord_a OW OP OA) as (P & E & HJ & _); [lia|exists q; auto|exists q'; auto|].
        exists P. split; [exact E|]. intros B x IB Ix. apply (p_cover _ _ (j_part _ _ _ _ HJ)). exists B. auto. }
    destruct G as (P & E & HP). unfold hopcroft_minimize. rewrite E. destruct (IA_vertices g) as [|v V] eqn:EV; [congruence|]. rewrite <- EV in *.
    destruct (find_idx (existsb (A_is_initial (ia_base g))) (ord_l 0 P)) as [i|] eqn:Ei; [|reflexivity]. exfalso.
    destruct (find_idx_some _ _ _ Ei) as (B & NB & EB). apply existsb_exists in EB. destruct EB as (q & Iq & Eq). apply nth_error_In in NB. apply (Permutation_in _ (OL 0 P)) in NB.
    apply (NI q (HP B q NB Iq)). unfold A_is_initial in Eq. unfold A_initial. destruct (eqb_spec (au_q0 (ia_base g)) (Some q)); [assumption|discriminate].
  Qed.

  (** C47: without transition, the result has two states and no transition: state 0 for the states of the same kind (final or not) as the initial one, and state 1 for the others, even if there are none. *)
  Theorem C47_no_transition n (ops : list (aop A)) fuel q0 : disciplined (aa_init n) ops ->
    let g := fst (runs IA_call (IA_init n) ops) in
    IA_edges g = [] -> In q0 (IA_vertices g) -> A_initial (ia_base g) = Some q0 -> 2 <= fuel ->
    exists g', hopcroft_minimize fuel g ord_w ord_p ord_a ord_l ord_q = Some (g', Ok tt) /\
      IA_vertices g' = [0; 1] /\ IA_edges g' = [] /\ A_initial (ia_base g') = Some 0 /\ A_is_final (ia_base g') 0 = A_is_final (ia_base g) q0 /\
      (A_is_final (ia_base g') 1 = true <-> A_is_final (ia_base g) q0 = false /\ exists q, In q (IA_vertices g) /\ A_is_final (ia_base g) q = true) /\
      (forall w, A_accepts (ia_base g') w = A_accepts (ia_base g) w).
  Proof using OW OP OA OL OQ.
    intros D g NE V0 Q0 LF. destruct (iarep_runs ops _ _ (iarep_init n) D) as [R _]. fold g in R. set (s := fst (runs ia_step (aa_init n) ops)) in R. clearbody g s. clear D ops n.
    assert (NV : IA_vertices g <> []) by (intros E; rewrite E in V0; destruct V0).
    set (Y := finals g). set (N := sdiff (IA_vertices g) (finals g)).
    assert (E : hopcroft_agglomerate_states fuel g ord_w ord_p ord_a = Some (Ok [Y; N])).
    { unfold Y, N. rewrite <- groups0_two by exact NV. apply drain; [apply (no_edges_alphabet g s R NE)|apply groups0_nodup|].
      change (length (groups0 g) <= fuel). rewrite groups0_two by exact NV. exact LF. }
    assert (IY : forall q, In q Y <-> In q (IA_vertices g) /\ A_is_final (ia_base g) q = true) by apply groups_split.
    assert (IN : forall q, In q N <-> In q (IA_vertices g) /\ A_is_final (ia_base g) q = false) by apply groups_split'. clearbody Y N.
    unfold hopcroft_minimize. rewrite E. clear E. pose proof (OL 0 [Y; N]) as PL.
    replace (match IA_vertices g with [] => Some (g, Ok tt) | _ => _ end) with
      (match find_idx (existsb (A_is_initial (ia_base g))) (ord_l 0 [Y; N]) with
       | Some i => let l := swap0 (ord_l 0 [Y; N]) i in
           Some (foreach (add_new_edge l) (IA_make (length l) (fun i => match nth_error l i with Some qs => existsb (A_is_final (ia_base g)) qs | None => false end))
             (flat_map (fun qs => flat_map (fun q => map (pair qs) (IA_out_edges g q)) (ord_q qs)) l))
       | None => Some (g, Raise AssertionError) end) by (destruct (IA_vertices g); [destruct V0|reflexivity]).
    (* the group of the initial state *)
    set (b := A_is_final (ia_base g) q0). set (B0 := if b then Y else N). set (B1 := if b then N else Y).
    assert (I0 : In q0 B0) by (unfold B0, b; destruct (A_is_final (ia_base g) q0) eqn:F; [apply IY|apply IN]; auto).
    assert (INI : forall B, existsb (A_is_initial (ia_base g)) B = true <-> In q0 B).
    { intros B. rewrite existsb_exists. unfold A_is_initial. unfold A_initial in Q0. rewrite Q0. split.
      - intros (q & Iq & Eq). destruct (eqb_spec (Some q0) (Some q)) as [[= <-]|]; [exact Iq|discriminate].
      - intros I. exists q0. split; [exact I|apply eqb_refl]. }
    assert (N1 : ~ In q0 B1) by (unfold B1, b; destruct (A_is_final (ia_base g) q0) eqn:F; intros I; [apply IN in I|apply IY in I]; destruct I; congruence).
    assert (E0 : existsb (A_is_initial (ia_base g)) B0 = true) by (apply INI, I0).
    assert (E1 : existsb (A_is_initial (ia_base g)) B1 = false) by (apply not_true_is_false; rewrite INI; exact N1).
    assert (SW : exists i, find_idx (existsb (A_is_initial (ia_base g))) (ord_l 0 [Y; N]) = Some i /\ swap0 (ord_l 0 [Y; N]) i = [B0; B1]).
    { assert (PB : Permutation (ord_l 0 [Y; N]) [B0; B1]) by (unfold B0, B1; destruct b; [exact PL|rewrite PL; apply perm_swap]).
      apply Permutation_sym, Permutation_length_2_inv in PB. destruct PB as [-> | ->].
      - exists 0. cbn [find_idx]. rewrite E0. split; reflexivity.
      - exists 1. cbn [find_idx]. rewrite E1, E0. split; reflexivity. }
    destruct SW as (i & -> & ->). cbv zeta.
    assert (OE : forall q, IA_out_edges g q = []).
    { intros q. destruct (IA_out_edges g q) as [|e l] eqn:EO; [reflexivity|]. assert (I : In e (IA_out_edges g q)) by (rewrite EO; left; reflexivity).
      apply (In_obs_out g s q _ R) in I. destruct I as [_ I]. apply (Permutation_in _ (Permutation_sym (obs_edges _ _ (proj1 R)))) in I.
      change (A_edges (ia_base g)) with (IA_edges g) in I. rewrite NE in I. destruct I. }
    assert (FE : flat_map (fun qs : list nat => flat_map (fun q => map (pair qs) (IA_out_edges g q)) (ord_q qs)) [B0; B1] = []).
    { assert (X : forall (B : list nat) l, flat_map (fun q => map (pair B) (IA_out_edges g q)) l = []) by (intros B l; induction l as [|x l IH]; cbn; [reflexivity|rewrite OE; exact IH]).
      cbn [flat_map]. rewrite !X. reflexivity. }
    rewrite FE. cbn [foreach length].
    set (final := fun i => match nth_error [B0; B1] i with Some qs => existsb (A_is_final (ia_base g)) qs | None => false end).
    exists (IA_make 2 final). split; [reflexivity|]. split; [reflexivity|]. split; [reflexivity|]. split; [reflexivity|].
    assert (F0 : final 0 = b).
    { unfold final. cbn [nth_error]. apply eq_iff_eq_true. rewrite existsb_exists. unfold B0. destruct b eqn:Eb.
      - split; [reflexivity|]. intros _. exists q0. split; [exact I0|exact Eb].
      - split; [|discriminate]. intros (q & Iq & Fq). apply IN in Iq. destruct Iq. congruence. }
    split; [exact F0|]. split.
    - change (final 1 = true <-> b = false /\ exists q, In q (IA_vertices g) /\ A_is_final (ia_base g) q = true).
      unfold final. cbn [nth_error]. rewrite existsb_exists. unfold B1. destruct b.
      + split; [intros (q & Iq & Fq); apply IN in Iq; destruct Iq; congruence|intros [X _]; discriminate].
      + split; [intros (q & Iq & Fq); apply IY in Iq; split; [reflexivity|exists q; exact Iq]|intros [_ (q & Vq & Fq)]; exists q; split; [apply IY; auto|exact Fq]].
    - intros w. apply eq_iff_eq_true. rewrite (accepts_path _ _ (proj1 (make_rep 2 final))), (accepts_path _ _ (proj1 R)).
      change (A_edges (ia_base g)) with (IA_edges g). rewrite NE. split; intros (q & r & Eq & P & F).
      + injection Eq as <-. inversion P as [|? ? ? ? ? []]; subst. exists q0, q0. split; [exact Q0|]. split; [constructor|]. change (final 0 = true) in F. rewrite F0 in F. exact F.
      + rewrite Q0 in Eq. injection Eq as <-. inversion P as [|? ? ? ? ? []]; subst. exists 0, 0. split; [reflexivity|]. split; [constructor|]. change (final 0 = true). rewrite F0. exact F.
  Qed.
End A.
Print Assumptions C47_no_initial.
Print Assumptions C47_no_transition.

(** Concrete cases: two final states and no transition; a removed initial state. *)
Definition rest_ops : list (aop nat) := [ASetFinal 0 true; ASetFinal 1 true].
Example ex_rest_disciplined : disciplined (aa_init 2) rest_ops. Proof. cbn. intuition discriminate. Qed.
Example ex_C47_no_transition : let g := fst (runs IA_call (IA_init 2) rest_ops) in
  IA_edges g = [] /\ IA_vertices g = [0; 1] /\ A_initial (ia_base g) = Some 0 /\
  match hopcroft_minimize 2 g ido (fun _ => ido) ido (fun _ l => rev l) (fun B => B) with
  | Some (g', Ok _) => IA_vertices g' = [0; 1] /\ map (A_is_final (ia_base g')) [0; 1] = [true; false] /\ A_accepts (ia_base g') [] = true
  | _ => False
  end.
Proof. vm_compute. repeat split. Qed.
Definition lost_ops : list (aop nat) := [AAddEdge 1 2 7; ASetFinal 2 true; ARemoveVertex 0].
Example ex_lost_disciplined : disciplined (aa_init 3) lost_ops. Proof. cbn. intuition discriminate. Qed.
Example ex_C47_no_initial : let g := fst (runs IA_call (IA_init 3) lost_ops) in
  IA_vertices g = [1; 2] /\ A_initial (ia_base g) = Some 0 /\ map (A_is_final (ia_base g)) [1; 2] = [false; true] /\
  hopcroft_minimize 3 g ido (fun _ => ido) ido ido (fun B => B) = Some (g, Raise AssertionError).
Proof. vm_compute. repeat split. Qed.
