(** Property C67, the traversals: a search with an aggregated visitor gives each visitor what it would get alone. *)
From Verif Require Import Base BaseProofs Graph Search SearchSpec SearchProofs SearchProofs2 TSearch BFSProofs TBFS TreeSpec TTree Agg.

(** ** Specification *)
Section Spec.
  Context {E St C : Type}.
  (** A visitor of the project: it does not receive the calls to if_push. *)
  Definition deaf (vis : event E -> St -> res St) : Prop := forall e st, vis (Ask e) st = Ok st.
  (** [together] is the result of a search with the aggregate of the [visitors], whose states are [sts]; [alone vis st]: the
      result of the same search with [vis] alone in the state [st]. *)
  Definition as_alone (visitors : list (event E -> St -> res St)) (sts : list St) (alone : (event E -> St -> res St) -> St -> option (res (C * St)))
      (together : option (res (C * list St))) : Prop :=
    match together with
    | Some (Ok (c, sts')) => length sts' = length visitors /\
        forall i vis st, nth_error visitors i = Some vis -> nth_error sts i = Some st -> exists st', nth_error sts' i = Some st' /\ alone vis st = Some (Ok (c, st'))
    | Some (Raise ex) => exists i vis st, nth_error visitors i = Some vis /\ nth_error sts i = Some st /\ alone vis st = Some (Raise ex)
    | None => False
    end.
End Spec.

(** ** Lemmas *)
Section Lemmas.
  Context {E St : Type}.
  Notation visitor := (event E -> St -> res St).

  Inductive F3 {X Y Z} (R : X -> Y -> Z -> Prop) : list X -> list Y -> list Z -> Prop :=
  | F3_nil : F3 R [] [] []
  | F3_cons x y z l m n : R x y z -> F3 R l m n -> F3 R (x :: l) (y :: m) (z :: n).
  Lemma F3_nth {X Y Z} (R : X -> Y -> Z -> Prop) l m n : F3 R l m n -> length n = length l /\
    forall i x y, nth_error l i = Some x -> nth_error m i = Some y -> exists z, nth_error n i = Some z /\ R x y z.
  Proof.
    induction 1 as [|x y z l m n H F IH]; [split; [reflexivity|intros [|i] x y; discriminate]|]. destruct IH as [IL IH]. split; [cbn [length]; rewrite IL; reflexivity|].
    intros [|i] x' y'; cbn [nth_error]; [intros [= <-] [= <-]; exists z; split; [reflexivity|exact H]|]. apply IH.
  Qed.

  Lemma wrapper_ok (visitors : list visitor) x sts sts' : length sts = length visitors -> agg_wrapper visitors x sts = Ok sts' -> F3 (fun v st st' => v x st = Ok st') visitors sts sts'.
  Proof.
    revert sts sts'. induction visitors as [|v vs IH]; intros [|st sts] sts' L H; cbn in L, H; try discriminate; [injection H as <-; constructor|].
    destruct (v x st) as [st1|ex] eqn:V; cbn [rbind] in H; [|discriminate]. destruct (agg_wrapper vs x sts) as [l|ex] eqn:W; cbn [rbind] in H; [|discriminate].
    injection H as <-. constructor; [exact V|]. apply IH; [congruence|exact W].
  Qed.
  Lemma wrapper_raise (visitors : list visitor) x sts ex : agg_wrapper visitors x sts = Raise ex -> exists i v st, nth_error visitors i = Some v /\ nth_error sts i = Some st /\ v x st = Raise ex /\
    forall j v' st', j < i -> nth_error visitors j = Some v' -> nth_error sts j = Some st' -> exists st'', v' x st' = Ok st''.
  Proof.
    revert sts. induction visitors as [|v vs IH]; intros [|st sts] H; cbn in H; try discriminate.
    destruct (v x st) as [st1|ex'] eqn:V; cbn [rbind] in H.
    - destruct (agg_wrapper vs x sts) as [l|ex'] eqn:W; cbn [rbind] in H; [discriminate|]. injection H as ->. destruct (IH _ W) as (i & v' & st' & A & B & D & F).
      exists (S i), v', st'. split; [exact A|]. split; [exact B|]. split; [exact D|]. intros [|j] v2 st2 L; cbn [nth_error]; [intros [= <-] [= <-]; exists st1; exact V|]. apply F. lia.
    - injection H as ->. exists 0, v, st. split; [reflexivity|]. split; [reflexivity|]. split; [exact V|]. intros j v' st' L. lia.
  Qed.
  Lemma agg_event_ok (visitors : list visitor) x sts sts' : Forall deaf visitors -> length sts = length visitors -> AggregatedVisitor visitors x sts = Ok sts' -> F3 (fun v st st' => v x st = Ok st') visitors sts sts'.
  Proof.
    intros D L H. destruct x; try (apply (wrapper_ok _ _ _ _ L H)). cbn in H. injection H as <-. clear -D L. revert sts L.
    induction D as [|v vs D1 D IH]; intros [|st sts] L; try discriminate L; constructor; [apply D1|]. apply IH. cbn in L. congruence.
  Qed.
  Lemma F3_trans (vs : list visitor) x t sts sts1 sts2 : F3 (fun v st st' => v x st = Ok st') vs sts sts1 -> F3 (fun v st st' => calls v t st = Ok st') vs sts1 sts2 ->
    F3 (fun v st st' => calls v (x :: t) st = Ok st') vs sts sts2.
  Proof.
    intros F. revert sts2. induction F as [|v st st1 vs sts sts1 H F IH]; intros sts2 G; inversion G; subst; constructor.
    - cbn [calls]. rewrite H. assumption.
    - apply IH. assumption.
  Qed.
  Lemma agg_calls_ok (visitors : list visitor) t : Forall deaf visitors -> forall sts sts', length sts = length visitors -> calls (AggregatedVisitor visitors) t sts = Ok sts' ->
    F3 (fun v st st' => calls v t st = Ok st') visitors sts sts'.
  Proof.
    intros D. induction t as [|x t IH]; intros sts sts' L H.
    - cbn in H. injection H as <-. clear -L. revert sts L. induction visitors as [|v vs IH]; intros [|st sts] L; try discriminate L; constructor; [reflexivity|]. apply IH. cbn in L. congruence.
    - cbn [calls] in H. destruct (AggregatedVisitor visitors x sts) as [sts1|ex] eqn:A; cbn [rbind] in H; [|discriminate].
      pose proof (agg_event_ok _ _ _ _ D L A) as F. eapply F3_trans; [exact F|]. apply IH; [|exact H]. apply (F3_nth _ _ _ _ F).
  Qed.
  Lemma agg_calls_raise (visitors : list visitor) t ex : Forall deaf visitors -> forall sts, length sts = length visitors -> calls (AggregatedVisitor visitors) t sts = Raise ex ->
    exists t1 x t2 i v st, t = t1 ++ x :: t2 /\ nth_error visitors i = Some v /\ nth_error sts i = Some st /\ calls v (t1 ++ [x]) st = Raise ex /\
      (forall j v' st', nth_error visitors j = Some v' -> nth_error sts j = Some st' -> exists st'', calls v' t1 st' = Ok st'') /\
      (forall j v' st', j < i -> nth_error visitors j = Some v' -> nth_error sts j = Some st' -> exists st'', calls v' (t1 ++ [x]) st' = Ok st'').
  Proof.
    intros D. induction t as [|x t IH]; intros sts L H; [discriminate H|].
    cbn [calls] in H. destruct (AggregatedVisitor visitors x sts) as [sts1|ex'] eqn:A; cbn [rbind] in H.
    - pose proof (agg_event_ok _ _ _ _ D L A) as F. destruct (F3_nth _ _ _ _ F) as [L1 N1]. destruct (IH sts1 L1 H) as (t1 & y & t2 & i & v & st & -> & B & B' & B2 & B3 & B4).
      assert (P : forall j v' st', nth_error visitors j = Some v' -> nth_error sts j = Some st' -> exists st1, nth_error sts1 j = Some st1 /\ v' x st' = Ok st1) by (intros j v' st' Q1 Q2; apply (N1 j v' st' Q1 Q2)).
      assert (exists st0, nth_error sts i = Some st0) as (st0 & S0).
      { destruct (nth_error sts i) eqn:Q; [eexists; reflexivity|]. apply nth_error_None in Q. assert (i < length visitors) by (apply nth_error_Some; congruence). lia. }
      exists (x :: t1), y, t2, i, v, st0. split; [reflexivity|]. split; [exact B|]. split; [exact S0|].
      destruct (P i v st0 B S0) as (st1 & Q1 & Q2). assert (st1 = st) by congruence. subst st1.
      split; [cbn [app calls]; rewrite Q2; exact B2|]. split.
      + intros j v' st' Q3 Q4. destruct (P j v' st' Q3 Q4) as (st1 & Q5 & Q6). destruct (B3 j v' st1 Q3 Q5) as (st2 & Q7). exists st2. cbn [calls]. rewrite Q6. exact Q7.
      + intros j v' st' LT Q3 Q4. destruct (P j v' st' Q3 Q4) as (st1 & Q5 & Q6). destruct (B4 j v' st1 LT Q3 Q5) as (st2 & Q7). exists st2. cbn [app calls]. rewrite Q6. exact Q7.
    - injection H as ->. assert (W : agg_wrapper visitors x sts = Raise ex) by (destruct x; try exact A; discriminate A). destruct (wrapper_raise _ _ _ _ W) as (i & v & st & B & B' & B2 & B3).
      exists [], x, t, i, v, st. split; [reflexivity|]. split; [exact B|]. split; [exact B'|]. split; [cbn; rewrite B2; reflexivity|]. split; [intros j v' st' _ _; exists st'; reflexivity|].
      intros j v' st' LT Q1 Q2. destruct (B3 j v' st' LT Q1 Q2) as (st'' & Q). exists st''. cbn. rewrite Q. reflexivity.
  Qed.
  Lemma calls_prefix_raise (v : visitor) t1 t2 st ex : calls v t1 st = Raise ex -> calls v (t1 ++ t2) st = Raise ex.
  Proof. revert st. induction t1 as [|x t1 IH]; intros st H; [discriminate H|]. cbn [app calls] in *. destruct (v x st); cbn [rbind] in *; [apply IH, H|exact H]. Qed.
End Lemmas.

Lemma bound_all {X} (P : X -> nat -> Prop) (l : list X) : (forall x, In x l -> exists b, forall n, b <= n -> P x n) -> exists b, forall n x, b <= n -> In x l -> P x n.
Proof.
  induction l as [|x l IH]; intros H; [exists 0; intros n y _ []|]. destruct (H x (or_introl eq_refl)) as (b & B). destruct IH as (b' & B'); [intros y I; apply H; right; exact I|].
  exists (Nat.max b b'). intros n y L [<-|I]; [apply B; lia|apply B'; [lia|exact I]].
Qed.

Section T.
  Context {E : Type}.
  Variables (out_edges : nat -> list E) (target : E -> nat) (if_push : E -> bool).

  (** Any search which makes the calls [t] whatever the visitor: the aggregate behaves as each visitor alone; when it raises, the
      exception is that of the visitor which is the first in the list to raise on the first call [x] on which one of them raises. *)
  Theorem C67_traversal {St C} (search : forall St, (event E -> St -> res St) -> nat -> St -> option (res (C * St))) t c' (visitors : list (event E -> St -> res St)) :
    performs search t c' -> Forall deaf visitors -> exists bound, forall sts fuel, bound <= fuel -> length sts = length visitors ->
      as_alone visitors sts (fun vis st => search St vis fuel st) (search (list St) (AggregatedVisitor visitors) fuel sts) /\
      (forall ex, search (list St) (AggregatedVisitor visitors) fuel sts = Some (Raise ex) ->
        exists t1 x t2 i vis st, t = t1 ++ x :: t2 /\ nth_error visitors i = Some vis /\ nth_error sts i = Some st /\ calls vis (t1 ++ [x]) st = Raise ex /\
          (forall j vis' st', nth_error visitors j = Some vis' -> nth_error sts j = Some st' ->
            (exists st'', calls vis' t1 st' = Ok st'') /\ (j < i -> exists st'', calls vis' (t1 ++ [x]) st' = Ok st''))).
  Proof.
    intros P D. destruct (P (list St) (AggregatedVisitor visitors)) as (b0 & B0).
    destruct (bound_all (fun vis n => forall st, search St vis n st = Some (match calls vis t st with Ok st' => Ok (c', st') | Raise x => Raise x end)) visitors) as (b1 & B1).
    { intros vis _. destruct (P St vis) as (b & B). exists b. intros n L st. apply B, L. }
    exists (Nat.max b0 b1). intros sts fuel L LS. rewrite (B0 sts fuel) by lia.
    assert (A1 : forall i vis st, nth_error visitors i = Some vis -> nth_error sts i = Some st -> search St vis fuel st = Some (match calls vis t st with Ok st' => Ok (c', st') | Raise x => Raise x end)).
    { intros i vis st I _. apply B1; [lia|]. apply (nth_error_In _ _ I). }
    destruct (calls (AggregatedVisitor visitors) t sts) as [sts'|ex] eqn:X; cbn [as_alone].
    - split; [|intros ex [=]]. destruct (F3_nth _ _ _ _ (agg_calls_ok visitors t D sts sts' LS X)) as [L1 N1]. split; [exact L1|].
      intros i vis st I J. destruct (N1 i vis st I J) as (st' & K & M). exists st'. split; [exact K|]. rewrite (A1 i vis st I J), M. reflexivity.
    - destruct (agg_calls_raise visitors t ex D sts LS X) as (t1 & x & t2 & i & v & st & -> & I & J & R & R1 & R2). split.
      + exists i, v, st. split; [exact I|]. split; [exact J|]. rewrite (A1 i v st I J).
        change (t1 ++ x :: t2) with (t1 ++ [x] ++ t2). rewrite app_assoc, (calls_prefix_raise _ _ _ _ _ R). reflexivity.
      + intros ex' [= <-]. exists t1, x, t2, i, v, st. split; [reflexivity|]. split; [exact I|]. split; [exact J|]. split; [exact R|].
        intros j v' st' K M. split; [apply (R1 j v' st' K M)|]. intros LT. apply (R2 j v' st' LT K M).
  Qed.

  Hypothesis FIN : finite_graph out_edges target.
  Notation next := (next out_edges target if_push).
  (** depth_first_search and breadth_first_search with an aggregated visitor *)
  Theorem C67_depth_first_search {St} s c (visitors : list (event E -> St -> res St)) : (forall v, steps next s v -> color_of c v = WHITE) -> Forall deaf visitors ->
    exists bound, forall sts fuel, bound <= fuel -> length sts = length visitors ->
      as_alone visitors sts (fun vis st => depth_first_search out_edges target if_push vis fuel s c st) (depth_first_search out_edges target if_push (AggregatedVisitor visitors) fuel s c sts).
  Proof.
    intros W D. destruct (C33_depth_first_search out_edges target if_push FIN s c W) as (t & c' & P & _). destruct (C67_traversal _ _ _ visitors P D) as (b & B).
    exists b. intros sts fuel L LS. apply (B sts fuel L LS).
  Qed.
  Theorem C67_breadth_first_search {St} vertices s c (visitors : list (event E -> St -> res St)) : (forall v, steps next s v -> In v vertices) -> Forall deaf visitors ->
    exists bound, forall sts fuel, bound <= fuel -> length sts = length visitors ->
      as_alone visitors sts (fun vis st => breadth_first_search out_edges target if_push vis fuel vertices s c st) (breadth_first_search out_edges target if_push (AggregatedVisitor visitors) fuel vertices s c sts).
  Proof.
    intros W D. destruct (C37_breadth_first_search out_edges target (fun _ => 0) if_push FIN vertices s c W) as (t & c' & P & _). destruct (C67_traversal _ _ _ visitors P D) as (b & B).
    exists b. intros sts fuel L LS. apply (B sts fuel L LS).
  Qed.
End T.
Print Assumptions C67_traversal.
Print Assumptions C67_depth_first_search.
Print Assumptions C67_breadth_first_search.

(** two visitors on a graph with a cycle: the vertices discovered, and the number of examined edges; and a third one that raises on
    the second vertex *)
Definition g67 : graph := fold_left (fun g '(u, v) => fst (G_add_edge g u v)) [(0, 1); (1, 2); (2, 0); (0, 2)] (G_init 3).
Definition names67 (x : event gedge) (st : list nat) : res (list nat) := match x with Discover u => Ok (u :: st) | _ => Ok st end.
Definition count67 (x : event gedge) (st : list nat) : res (list nat) := match x with Examine _ => Ok (0 :: st) | _ => Ok st end.
Definition stop67 (x : event gedge) (st : list nat) : res (list nat) := match x with Discover 1 => Raise RuntimeError | _ => Ok st end.
Example C67_example_hypotheses : Forall deaf [names67; count67; stop67].
Proof. repeat constructor. Qed.
Example C67_example :
  breadth_first_search (G_out_edges g67) target (fun _ => true) (AggregatedVisitor [names67; count67]) 50 (G_vertices g67) 0 [] [[]; []] = Some (Ok ([(0, BLACK); (1, BLACK); (2, BLACK)], [[2; 1; 0]; [0; 0; 0; 0]])) /\
  breadth_first_search (G_out_edges g67) target (fun _ => true) (AggregatedVisitor [names67; stop67; count67]) 50 (G_vertices g67) 0 [] [[]; []; []] = Some (Raise RuntimeError).
Proof. vm_compute. split; reflexivity. Qed.
