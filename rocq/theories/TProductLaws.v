(** Theorems C130: the laws of deterministic_intersection and deterministic_union, as decided by deterministic_inclusion. *)
From Coq Require Import ZArith.
From Verif Require Import Graph GraphProofs Automaton AutomatonSpec AutomatonProofs PBFS PBFSProofs PBFSProofs2 PBFSProofs3 PBFSProofs4 TPBFS Base BaseProofs.
Open Scope nat_scope.

Section T.
  Context {A : Type} {EA : EqDec A}.
  Implicit Types g : aut A.

  (** the fuel that is always enough for the parallel search of two automata *)
  Definition enough g1 g2 (fuel : nat) : Prop := (A_num_edges g1 + 1) * (A_num_edges g2 + 1) + 2 <= fuel.
  (** a transition leaves the initial state *)
  Definition starts g : Prop := exists a q, A_delta_word g (A_initial g) [a] = Some q.

  Lemma inclusion_below g1 g2 ord fuel : valid_order ord -> enough g1 g2 fuel -> included g1 g2 ->
    deterministic_inclusion g1 g2 ord fuel = Some (Some 0%Z) \/ deterministic_inclusion g1 g2 ord fuel = Some (Some 1%Z).
  Proof.
    intros OV F I. destruct (C43_deterministic_inclusion g1 g2 ord fuel OV F) as (r & -> & R0 & R1 & R2 & R3). destruct r as [z|]; [|destruct (proj1 R3 eq_refl) as [X _]; contradiction].
    destruct (Z.eq_dec z 0) as [->|N0]; [auto|]. destruct (Z.eq_dec z 1) as [->|N1]; [auto|]. exfalso.
    assert (D : ~ included g2 g1). { intros J. apply N0. assert (Q : Some z = Some 0%Z) by (apply R0; auto). congruence. }
    apply N1. assert (Q : Some z = Some 1%Z) by (apply R1; auto). congruence.
  Qed.
  Lemma inclusion_same g1 g2 ord fuel : valid_order ord -> enough g1 g2 fuel -> (forall w, A_accepts g1 w = true <-> A_accepts g2 w = true) ->
    deterministic_inclusion g1 g2 ord fuel = Some (Some 0%Z).
  Proof.
    intros OV F I. destruct (C43_deterministic_inclusion g1 g2 ord fuel OV F) as (r & -> & R0 & _). f_equal. apply R0. split; intros w X; apply I, X.
  Qed.

  (** The intersection is included in both arguments. *)
  Theorem C130_intersection_below g1 g2 ord fuel : A_initial g1 <> None -> A_initial g2 <> None -> valid_order ord -> enough g1 g2 fuel ->
    exists g12, deterministic_intersection g1 g2 ord fuel = Some (g12, Ok tt) /\
    forall ord' fuel', valid_order ord' ->
      (enough g12 g1 fuel' -> deterministic_inclusion g12 g1 ord' fuel' = Some (Some 0%Z) \/ deterministic_inclusion g12 g1 ord' fuel' = Some (Some 1%Z)) /\
      (enough g12 g2 fuel' -> deterministic_inclusion g12 g2 ord' fuel' = Some (Some 0%Z) \/ deterministic_inclusion g12 g2 ord' fuel' = Some (Some 1%Z)).
  Proof.
    intros N1 N2 OV F. destruct (C44_deterministic_intersection_exact g1 g2 ord fuel N1 N2 OV F) as (g12 & E & X). exists g12. split; [exact E|].
    intros ord' fuel' OV'. split; intros F'; apply inclusion_below; try assumption; intros w W; apply X in W; tauto.
  Qed.
  (** The two orders of the arguments give the same language, whatever the iteration orders. *)
  Theorem C130_intersection_commutes g1 g2 ord ord2 fuel : A_initial g1 <> None -> A_initial g2 <> None -> valid_order ord -> valid_order ord2 -> enough g1 g2 fuel ->
    exists g12 g21, deterministic_intersection g1 g2 ord fuel = Some (g12, Ok tt) /\ deterministic_intersection g2 g1 ord2 fuel = Some (g21, Ok tt) /\
    forall ord' fuel', valid_order ord' -> enough g12 g21 fuel' -> deterministic_inclusion g12 g21 ord' fuel' = Some (Some 0%Z).
  Proof.
    intros N1 N2 OV OV2 F. destruct (C44_deterministic_intersection_exact g1 g2 ord fuel N1 N2 OV F) as (g12 & E & X).
    destruct (C44_deterministic_intersection_exact g2 g1 ord2 fuel N2 N1 OV2) as (g21 & E' & X'); [unfold enough in F; lia|].
    exists g12, g21. split; [exact E|]. split; [exact E'|]. intros ord' fuel' OV' F'. apply inclusion_same; [exact OV'|exact F'|]. intros w. rewrite X, X'. split.
    - intros ([A1 A2] & B & C). split; [auto|]. split.
      + destruct B as [B|(a & q1 & q2 & B1 & B2)]; [left; exact B|]. right. exists a, q2, q1. auto.
      + intros u a v q1 q2 W D1 D2. destruct (C u a v q2 q1 W D2 D1) as [[]|[]]; auto.
    - intros ([A1 A2] & B & C). split; [auto|]. split.
      + destruct B as [B|(a & q1 & q2 & B1 & B2)]; [left; exact B|]. right. exists a, q2, q1. auto.
      + intros u a v q1 q2 W D1 D2. destruct (C u a v q2 q1 W D2 D1) as [[]|[]]; auto.
  Qed.
  (** The intersection of an automaton with itself has the same language exactly when no accepted word passes through a
      state 0 that is not initial before its end, and the empty word is not accepted by an automaton that does not start. *)
  Theorem C130_intersection_idempotent_partial g ord fuel : A_initial g <> None -> valid_order ord -> enough g g fuel ->
    exists g', deterministic_intersection g g ord fuel = Some (g', Ok tt) /\
    forall ord' fuel', valid_order ord' -> enough g' g fuel' ->
      (deterministic_inclusion g' g ord' fuel' = Some (Some 0%Z) <->
       (A_accepts g [] = true -> starts g) /\
       (A_initial g = Some 0 \/ forall u a v, A_accepts g (u ++ a :: v) = true -> A_delta_word g (A_initial g) u <> Some 0)).
  Proof.
    intros N OV F. destruct (C44_deterministic_intersection_exact g g ord fuel N N OV F) as (g' & E & X). exists g'. split; [exact E|]. intros ord' fuel' OV' F'.
    destruct (C43_deterministic_inclusion g' g ord' fuel' OV' F') as (r & -> & R0 & _).
    assert (Q : Some r = Some (Some 0%Z) <-> included g g').
    { split; [intros Y; injection Y as Y; apply R0, Y|]. intros Y. f_equal. apply R0. split; [intros w W; apply X in W; tauto|exact Y]. }
    rewrite Q. clear Q R0 r F' OV' E. split.
    - intros I. split.
      + intros W. apply I, X in W. destruct W as (_ & [B|(a & q1 & _ & B & _)] & _); [destruct (B eq_refl)|]. exists a, q1. exact B.
      + destruct (A_initial g) as [i|] eqn:EI; [|destruct (N eq_refl)]. destruct (Nat.eq_dec i 0) as [->|NI]; [left; reflexivity|]. right. intros u a v W D.
        apply I, X in W. destruct W as (_ & _ & C). destruct (C u a v 0 0 eq_refl D D) as [[H _]|[H _]]; [injection H as ->|]; lia.
    - intros (H1 & H2) w W. apply X. split; [auto|]. split.
      + destruct w as [|b w]; [|left; discriminate]. right. destruct (H1 W) as (a & q & D). exists a, q, q. auto.
      + intros u a v q1 q2 -> D1 D2. rewrite D1 in D2. injection D2 as <-. destruct (Nat.eq_dec q1 0) as [->|NQ]; [|right; auto]. left.
        destruct H2 as [H2|H2]; [auto|]. destruct (H2 u a v W D1).
  Qed.
  (** The union of an automaton with itself has the same language, unless it accepts the empty word and does not start. *)
  Theorem C130_union_idempotent_partial g ord fuel : A_initial g <> None -> valid_order ord -> enough g g fuel ->
    exists g', deterministic_union g g ord fuel = Some (g', Ok tt) /\
    forall ord' fuel', valid_order ord' -> enough g' g fuel' ->
      (deterministic_inclusion g' g ord' fuel' = Some (Some 0%Z) <-> (A_accepts g [] = true -> starts g)).
  Proof.
    intros N OV F. destruct (C45_deterministic_union_partial g g ord fuel N N OV) as (g' & E & X); [intros w; tauto|exact F|]. exists g'. split; [exact E|]. intros ord' fuel' OV' F'.
    destruct (C43_deterministic_inclusion g' g ord' fuel' OV' F') as (r & -> & R0 & _).
    assert (Q : Some r = Some (Some 0%Z) <-> included g g').
    { split; [intros Y; injection Y as Y; apply R0, Y|]. intros Y. f_equal. apply R0. split; [intros w W; apply X in W; tauto|exact Y]. }
    rewrite Q. split.
    - intros I W. apply I, X in W. destruct W as (_ & [B|(a & q & [B|B])]); [destruct (B eq_refl)|exists a, q; exact B|exists a, q; exact B].
    - intros H w W. apply X. split; [auto|]. destruct w as [|b w]; [|left; discriminate]. right. destruct (H W) as (a & q & D). exists a, q. auto.
  Qed.
  (** When no word leads back to a single initial state, the union contains both arguments (up to the empty word) and the
      two orders of the arguments give the same language. *)
  Definition return_together g1 g2 : Prop := forall w, A_delta_word g1 (A_initial g1) w = A_initial g1 <-> A_delta_word g2 (A_initial g2) w = A_initial g2.
  Theorem C130_union_commutes_partial g1 g2 ord ord2 fuel : A_initial g1 <> None -> A_initial g2 <> None -> valid_order ord -> valid_order ord2 -> return_together g1 g2 -> enough g1 g2 fuel ->
    exists g12 g21, deterministic_union g1 g2 ord fuel = Some (g12, Ok tt) /\ deterministic_union g2 g1 ord2 fuel = Some (g21, Ok tt) /\
    forall ord' fuel', valid_order ord' ->
      (enough g12 g21 fuel' -> deterministic_inclusion g12 g21 ord' fuel' = Some (Some 0%Z)) /\
      (enough g1 g12 fuel' -> (A_accepts g1 [] = true -> starts g1 \/ starts g2) ->
       deterministic_inclusion g1 g12 ord' fuel' = Some (Some 0%Z) \/ deterministic_inclusion g1 g12 ord' fuel' = Some (Some 1%Z)).
  Proof.
    intros N1 N2 OV OV2 RT F. destruct (C45_deterministic_union_partial g1 g2 ord fuel N1 N2 OV) as (g12 & E & X); [intros w; specialize (RT w); tauto|exact F|].
    destruct (C45_deterministic_union_partial g2 g1 ord2 fuel N2 N1 OV2) as (g21 & E' & X'); [intros w; specialize (RT w); tauto|unfold enough in F; lia|].
    exists g12, g21. split; [exact E|]. split; [exact E'|]. intros ord' fuel' OV'. split; intros F'.
    - apply inclusion_same; [exact OV'|exact F'|]. intros w. rewrite X, X'. split; (intros [B C]; split; [tauto|]); (destruct C as [C|(a & q & C)]; [left; exact C|right; exists a, q; tauto]).
    - intros S. apply inclusion_below; [exact OV'|exact F'|]. intros w W. apply X. split; [auto|]. destruct w as [|b w]; [|left; discriminate]. right.
      destruct (S W) as [(a & q & D)|(a & q & D)]; exists a, q; auto.
  Qed.
End T.

(** The laws are false in general. Idempotence of the intersection: the word 7 8 passes through state 0, and the result is
    strictly below the argument. *)
Theorem C130_intersection_idempotent_refuted : exists (n : nat) (ops : list (aop nat)),
  let g := fst (runs A_call (A_init n) ops) in
  A_initial g <> None /\ starts g /\
  match deterministic_intersection g g id_order 100 with
  | Some (g', Ok _) => deterministic_inclusion g' g id_order 100 = Some (Some 1%Z)
  | _ => False
  end.
Proof.
  exists 3, [AAddEdge 1 0 7; AAddEdge 0 2 8; ASetInitial (Some 1) true; ASetFinal 2 true]. cbv zeta.
  split; [vm_compute; discriminate|]. split; [exists 7, 0; vm_compute; reflexivity|]. vm_compute. reflexivity.
Qed.
(** Idempotence of the union: an automaton with one final state and no transition. *)
Theorem C130_union_idempotent_refuted : exists (n : nat) (ops : list (aop nat)),
  let g := fst (runs A_call (A_init n) ops) in
  A_initial g <> None /\
  match deterministic_union g g id_order 100 with
  | Some (g', Ok _) => deterministic_inclusion g' g id_order 100 = Some (Some 1%Z)
  | _ => False
  end.
Proof.
  exists 1, [ASetInitial (Some 0) true; ASetFinal 0 true]. cbv zeta. split; [vm_compute; discriminate|]. vm_compute. reflexivity.
Qed.
(** Commutativity of the union: each automaton returns to its initial state by one of the two symbols, and the result
    depends on the symbol explored last. With [id_order] the set of the symbols is iterated in an order that depends on how
    it was built (CPython does so for symbols whose hashes collide, such as 0 and 8). *)
Theorem C130_union_commutes_refuted : exists (n : nat) (ops1 ops2 : list (aop nat)),
  let g1 := fst (runs A_call (A_init n) ops1) in
  let g2 := fst (runs A_call (A_init n) ops2) in
  A_initial g1 <> None /\ A_initial g2 <> None /\
  match deterministic_union g1 g2 id_order 100, deterministic_union g2 g1 id_order 100 with
  | Some (g12, Ok _), Some (g21, Ok _) => deterministic_inclusion g12 g21 id_order 100 <> Some (Some 0%Z)
  | _, _ => False
  end.
Proof.
  exists 3, [AAddEdge 0 0 0; AAddEdge 0 1 8; AAddEdge 1 2 0; ASetInitial (Some 0) true; ASetFinal 2 true],
            [AAddEdge 0 0 8; AAddEdge 0 1 0; AAddEdge 1 2 8; ASetInitial (Some 0) true; ASetFinal 2 true]. cbv zeta.
  split; [vm_compute; discriminate|]. split; [vm_compute; discriminate|]. vm_compute. discriminate.
Qed.

(** Two automata that meet the hypotheses: a cycle of length 2 and one of length 2 with another final state. *)
Example C130_example :
  let g1 := fst (runs A_call (A_init 2) [AAddEdge 0 1 7; AAddEdge 1 0 7; ASetInitial (Some 0) true; ASetFinal 1 true]) in
  let g2 := fst (runs A_call (A_init 3) [AAddEdge 0 1 7; AAddEdge 1 0 7; AAddEdge 1 2 8; ASetInitial (Some 0) true; ASetFinal 1 true; ASetFinal 2 true]) in
  A_initial g1 = Some 0 /\ A_initial g2 = Some 0 /\ starts g1 /\
  match deterministic_intersection g1 g2 id_order 100, deterministic_intersection g2 g1 id_order 100, deterministic_union g1 g2 id_order 100, deterministic_union g2 g1 id_order 100 with
  | Some (a, Ok _), Some (b, Ok _), Some (c, Ok _), Some (d, Ok _) =>
      deterministic_inclusion a b id_order 100 = Some (Some 0%Z) /\ deterministic_inclusion c d id_order 100 = Some (Some 0%Z) /\
      deterministic_inclusion a g1 id_order 100 = Some (Some 0%Z) /\ deterministic_inclusion a g2 id_order 100 = Some (Some 1%Z) /\
      deterministic_inclusion g1 c id_order 100 = Some (Some 1%Z)
  | _, _, _, _ => False
  end.
Proof.
  cbv zeta. split; [vm_compute; reflexivity|]. split; [vm_compute; reflexivity|]. split; [exists 7, 1; vm_compute; reflexivity|]. vm_compute.
  split; [reflexivity|]. split; [reflexivity|]. split; [reflexivity|]. split; reflexivity.
Qed.
Print Assumptions C130_intersection_below.
Print Assumptions C130_intersection_commutes.
Print Assumptions C130_intersection_idempotent_partial.
Print Assumptions C130_intersection_idempotent_refuted.
Print Assumptions C130_union_idempotent_partial.
Print Assumptions C130_union_idempotent_refuted.
Print Assumptions C130_union_commutes_partial.
Print Assumptions C130_union_commutes_refuted.
