(** Theorem C136: the states and the transitions of the products of automata. *)
From Verif Require Import Base BaseProofs Graph GraphProofs Automaton AutomatonSpec AutomatonProofs
  PBFS PBFSProofs PBFSProofs2 PBFSProofs3 ProductStatesSpec ProductStatesProofs.

Section T.
  Context {A : Type} {EA : EqDec A}.

  (** ** Union *)
  (** Some symbol is enabled in one of the initial states. *)
  Definition one_starts (g1 g2 : aut A) : Prop := exists a, pair_after g1 g2 [a] <> (None, None).

  (** C136: the states of the union are, once each, the pairs reached by the words as long as one automaton has a
      state (none at all when no symbol is enabled at the beginning); each symbol enabled in one of the two states leads
      to the next pair; and there are fewer than (n1 + 1) * (n2 + 1) states. *)
  Theorem C136_union_states (g1 g2 : aut A) ord fuel : valid_order ord ->
    (A_num_edges g1 + 1) * (A_num_edges g2 + 1) + 2 <= fuel ->
    exists g12 pair, deterministic_union g1 g2 ord fuel = Some (g12, Ok tt) /\
      product_of g1 g2 g12 orb (fun p => p <> (None, None) /\ (exists w, p = pair_after g1 g2 w) /\ one_starts g1 g2)
        (fun p a => pair_step g1 g2 p a <> (None, None)) pair /\
      (one_starts g1 g2 -> exists v, A_initial g12 = Some v /\ In v (A_vertices g12) /\ (fst (pair v) = A_initial g1 \/ snd (pair v) = A_initial g2)) /\
      forall U1 U2, (forall w q, A_delta_word g1 (A_initial g1) w = Some q -> In q U1) ->
        (forall w q, A_delta_word g2 (A_initial g2) w = Some q -> In q U2) ->
        length (A_vertices g12) < (length U1 + 1) * (length U2 + 1).
  Proof.
    intros OV L. destruct (union_states g1 g2 ord fuel OV L) as (g12 & f & E & P & Q). exists g12, f. split; [exact E|].
    assert (P' : product_of g1 g2 g12 orb (fun p => p <> (None, None) /\ (exists w, p = pair_after g1 g2 w) /\ one_starts g1 g2)
        (fun p a => pair_step g1 g2 p a <> (None, None)) f).
    { eapply product_of_ext; [exact P|reflexivity|]. intros p a _. rewrite pair_step_succ. reflexivity. }
    split; [exact P'|]. split; [exact Q|]. intros U1 U2 H1 H2.
    set (X := list_prod (None :: map Some U1) (None :: map Some U2)).
    assert (LX : length X = (length U1 + 1) * (length U2 + 1)).
    { unfold X. rewrite prod_length. cbn [length]. rewrite !map_length. lia. }
    rewrite <- LX. unfold X. cbn [list_prod map app length]. apply Nat.lt_succ_r.
    apply (count_pairs f (A_vertices g12) _ (po_nodup _ _ _ _ _ _ _ P') (po_inj _ _ _ _ _ _ _ P')).
    intros v Iv. destruct (po_state _ _ _ _ _ _ _ P' v Iv) as (N & (w & Ew) & _). fold X.
    assert (IX : In (f v) X).
    { rewrite Ew. unfold X, pair_after. apply in_prod.
      - destruct (A_delta_word g1 (A_initial g1) w) eqn:D; [right; apply in_map; eapply H1; exact D|left; reflexivity].
      - destruct (A_delta_word g2 (A_initial g2) w) eqn:D; [right; apply in_map; eapply H2; exact D|left; reflexivity]. }
    unfold X in IX. cbn [list_prod map app] in IX. destruct IX as [IX|IX]; [congruence|exact IX].
  Qed.

  (** ** Intersection *)
  Definition both_states (p : option nat * option nat) : Prop := fst p <> None /\ snd p <> None.
  (** Some symbol is enabled in both initial states. *)
  Definition both_start (g1 g2 : aut A) : Prop := exists a, both_states (pair_after g1 g2 [a]).
  (** The pairs whose transitions are examined: the initial one and those without the state 0. *)
  Definition expanded (g1 g2 : aut A) (p : option nat * option nat) : Prop :=
    p = (A_initial g1, A_initial g2) \/ (fst p <> Some 0 /\ snd p <> Some 0).

  (** C136: the states of the intersection are, once each, the pairs reached by the words that both automata can
      read and that do not go on after a pair with the state 0 other than the initial one; every state is reached
      from the initial state, which is the pair of initial states, by the words that lead to its pair; and there are at most
      n1 * n2 states. *)
  Theorem C136_intersection_states (g1 g2 : aut A) ord fuel :
    A_initial g1 <> None -> A_initial g2 <> None -> valid_order ord ->
    (A_num_edges g1 + 1) * (A_num_edges g2 + 1) + 2 <= fuel ->
    exists g12 pair, deterministic_intersection g1 g2 ord fuel = Some (g12, Ok tt) /\
      product_of g1 g2 g12 andb
        (fun p => exists w, p = pair_after g1 g2 w /\ both_states p /\ (w <> [] \/ both_start g1 g2) /\
           forall u a v, w = u ++ a :: v -> expanded g1 g2 (pair_after g1 g2 u))
        (fun p a => both_states (pair_step g1 g2 p a) /\ expanded g1 g2 p) pair /\
      (forall v, In v (A_vertices g12) -> (A_initial g12 = Some v <-> pair v = (A_initial g1, A_initial g2))) /\
      (forall v, In v (A_vertices g12) -> exists w, A_delta_word g12 (A_initial g12) w = Some v) /\
      (forall w v, In v (A_vertices g12) -> A_delta_word g12 (A_initial g12) w = Some v -> pair v = pair_after g1 g2 w) /\
      forall U1 U2, (forall w q, A_delta_word g1 (A_initial g1) w = Some q -> In q U1) ->
        (forall w q, A_delta_word g2 (A_initial g2) w = Some q -> In q U2) ->
        length (A_vertices g12) <= length U1 * length U2.
  Proof.
    intros N1 N2 OV L. destruct (inter_states g1 g2 ord fuel N1 N2 OV L) as (g12 & f & E & P & Q). exists g12, f. split; [exact E|].
    assert (EX : forall p, both p -> (p = p0 g1 g2 \/ inter_pp p = true) <-> expanded g1 g2 p).
    { intros p B. unfold expanded, PBFSProofs2.p0. apply or_iff_compat_l. destruct p as [[[|x]|] [[|y]|]], B as [B1 B2]; cbn in *; try congruence; intuition congruence. }
    assert (BP : forall w u a v, w = u ++ a :: v -> both (pair_after g1 g2 w) -> both (pair_after g1 g2 u)).
    { intros w u a v -> [X Y]. unfold pair_after in *. cbn [fst snd] in *. rewrite delta_word_app in X, Y.
      split; cbn [fst snd]; intros Z; [rewrite Z, delta_word_None in X|rewrite Z, delta_word_None in Y]; congruence. }
    assert (P' : product_of g1 g2 g12 andb
        (fun p => exists w, p = pair_after g1 g2 w /\ both_states p /\ (w <> [] \/ both_start g1 g2) /\
           forall u a v, w = u ++ a :: v -> expanded g1 g2 (pair_after g1 g2 u))
        (fun p a => both_states (pair_step g1 g2 p a) /\ expanded g1 g2 p) f).
    { eapply product_of_ext; [exact P| |].
      - intros p. split; intros (w & -> & B & C & Z); exists w; (split; [reflexivity|]; split; [exact B|]; split; [exact C|]);
          intros u a v Ew; apply (EX (pair_after g1 g2 u)); try (apply (BP w u a v Ew B)); apply (Z u a v Ew).
      - intros p a (w & -> & B & _). pose proof (pair_step_succ g1 g2 (pw g1 g2 w) a) as PS. pose proof (EX _ B) as EB.
        unfold both_states, both. split; intros [[X1 X2] Y]; (split; [split; congruence|tauto]). }
    split; [exact P'|].
    assert (Start : forall v, In v (A_vertices g12) -> exists v0, A_initial g12 = Some v0 /\ In v0 (A_vertices g12) /\ f v0 = p0 g1 g2).
    { intros v Iv. apply Q. destruct (po_state _ _ _ _ _ _ _ P' v Iv) as (w & Ew & B & C & _). destruct C as [C|C]; [|exact C].
      destruct w as [|a w]; [congruence|]. exists a. destruct w as [|b w]; [rewrite Ew in B; exact B|].
      rewrite Ew in B. apply (BP (a :: b :: w) [a] b w eq_refl B). }
    assert (Read : forall w v, A_delta_word g12 (A_initial g12) w = Some v -> (exists v', In v' (A_vertices g12)) -> In v (A_vertices g12) /\ f v = pair_after g1 g2 w).
    { intros w. induction w as [|a w IH] using rev_ind; intros v D V; destruct V as (v' & Iv').
      - destruct (Start v' Iv') as (v0 & E0 & I0 & F0). assert (v = v0) by (cbn in D; congruence). subst v. split; [exact I0|exact F0].
      - rewrite delta_word_snoc in D. destruct (A_delta_word g12 (A_initial g12) w) as [r|] eqn:Dr; [|discriminate].
        destruct (IH r eq_refl (ex_intro _ v' Iv')) as [Ir Fr]. cbn in D. apply (po_move _ _ _ _ _ _ _ P' r a v Ir) in D. destruct D as (_ & Iv & Fv).
        split; [exact Iv|]. rewrite Fv, Fr, pair_step_succ. change (pair_after g1 g2) with (pw g1 g2). rewrite pw_snoc. reflexivity. }
    split; [|split; [|split]].
    - intros v Iv. destruct (Start v Iv) as (v0 & E0 & I0 & F0). split.
      + intros E1. assert (v = v0) by congruence. subst v. exact F0.
      + intros F. rewrite E0. f_equal. apply (po_inj _ _ _ _ _ _ _ P' v0 v I0 Iv). rewrite F0, F. reflexivity.
    - intros v Iv. destruct (Start v Iv) as (v0 & E0 & I0 & F0). destruct (po_state _ _ _ _ _ _ _ P' v Iv) as (w & Ew & B & C & Z).
      assert (G : forall u v, w = u ++ v -> exists r, A_delta_word g12 (A_initial g12) u = Some r /\ In r (A_vertices g12) /\ f r = pair_after g1 g2 u).
      { intros u. induction u as [|a u IH] using rev_ind; intros x Ex.
        - exists v0. split; [exact E0|]. split; [exact I0|exact F0].
        - destruct (IH ([a] ++ x)) as (r & Dr & Ir & Fr); [rewrite Ex, <- app_assoc; reflexivity|].
          assert (Eu : w = u ++ a :: x) by (rewrite Ex, <- app_assoc; reflexivity).
          assert (Bu : both (pair_after g1 g2 (u ++ [a]))).
          { destruct x as [|b x]; [rewrite app_nil_r in Ex; rewrite <- Ex, <- Ew; exact B|]. apply (BP w (u ++ [a]) b x Ex). rewrite <- Ew. exact B. }
          assert (St : exists s, In s (A_vertices g12) /\ f s = pair_after g1 g2 (u ++ [a])).
          { apply (po_onto _ _ _ _ _ _ _ P'). exists (u ++ [a]). split; [reflexivity|]. split; [exact Bu|]. split; [left; destruct u; discriminate|].
            intros y b z Ey. apply (Z y b (z ++ x)). rewrite Ex, Ey, <- app_assoc. reflexivity. }
          destruct St as (s & Is & Fs). exists s. split; [|auto]. rewrite delta_word_snoc, Dr. cbn.
          apply (po_move _ _ _ _ _ _ _ P' r a s Ir).
          assert (PS : pair_step g1 g2 (f r) a = pair_after g1 g2 (u ++ [a])).
          { rewrite Fr, pair_step_succ. change (pair_after g1 g2) with (pw g1 g2). rewrite pw_snoc. reflexivity. }
          rewrite PS. split; [|auto]. split; [exact Bu|]. rewrite Fr. apply (Z u a x Eu). }
      destruct (G w [] (eq_sym (app_nil_r w))) as (r & Dr & Ir & Fr). exists w. rewrite Dr. f_equal.
      apply (po_inj _ _ _ _ _ _ _ P' r v Ir Iv). congruence.
    - intros w v Iv D. apply (Read w v D). exists v. exact Iv.
    - intros U1 U2 H1 H2. set (X := list_prod (map Some U1) (map Some U2)).
      assert (LX : length X = length U1 * length U2) by (unfold X; rewrite prod_length, !map_length; reflexivity).
      rewrite <- LX. apply (count_pairs f (A_vertices g12) _ (po_nodup _ _ _ _ _ _ _ P') (po_inj _ _ _ _ _ _ _ P')).
      intros v Iv. destruct (po_state _ _ _ _ _ _ _ P' v Iv) as (w & Ew & [B1 B2] & _). rewrite Ew in *. unfold X, pair_after in *. cbn [fst snd] in *. apply in_prod.
      + destruct (A_delta_word g1 (A_initial g1) w) eqn:D; [|congruence]. apply in_map. eapply H1. exact D.
      + destruct (A_delta_word g2 (A_initial g2) w) eqn:D; [|congruence]. apply in_map. eapply H2. exact D.
  Qed.

  (** ** The order in which the symbols are visited only changes the names of the states *)
  (** [f] renames the states of [g] into those of [h]. *)
  Record renames (f : nat -> nat) (g h : aut A) : Prop := {
    rn_in : forall v, In v (A_vertices g) -> In (f v) (A_vertices h);
    rn_onto : forall w, In w (A_vertices h) -> exists v, In v (A_vertices g) /\ f v = w;
    rn_inj : forall v v', In v (A_vertices g) -> In v' (A_vertices g) -> f v = f v' -> v = v';
    rn_move : forall v a r, In v (A_vertices g) -> In r (A_vertices g) -> (A_delta g v a = Some r <-> A_delta h (f v) a = Some (f r));
    rn_final : forall v, In v (A_vertices g) -> A_is_final g v = A_is_final h (f v) }.

  Lemma product_renames g1 g2 g h op M E p q : product_of g1 g2 g op M E p -> product_of g1 g2 h op M E q ->
    exists f, renames f g h /\ forall v, In v (A_vertices g) -> q (f v) = p v.
  Proof.
    intros P Q.
    set (f := fun v => match find (fun x => eqb (q x) (p v)) (A_vertices h) with Some x => x | None => 0 end).
    assert (F : forall v, In v (A_vertices g) -> In (f v) (A_vertices h) /\ q (f v) = p v).
    { intros v Iv. unfold f. destruct (find (fun x => eqb (q x) (p v)) (A_vertices h)) as [x|] eqn:X.
      - apply find_some in X. destruct X as [Ix X]. apply (proj1 (eqb_eq _ _)) in X. auto.
      - exfalso. destruct (po_onto _ _ _ _ _ _ _ Q (p v) (po_state _ _ _ _ _ _ _ P v Iv)) as (x & Ix & Ex).
        assert (Y := find_none _ _ X x Ix). cbn beta in Y. rewrite Ex, eqb_refl in Y. discriminate. }
    exists f. split; [|intros v Iv; apply F, Iv]. constructor.
    - intros v Iv. apply F, Iv.
    - intros w Iw. destruct (po_onto _ _ _ _ _ _ _ P (q w) (po_state _ _ _ _ _ _ _ Q w Iw)) as (v & Iv & Ev). exists v. split; [exact Iv|].
      destruct (F v Iv) as [If Ef]. apply (po_inj _ _ _ _ _ _ _ Q); [exact If|exact Iw|congruence].
    - intros v v' Iv Iv' X. apply (po_inj _ _ _ _ _ _ _ P); [exact Iv|exact Iv'|]. destruct (F v Iv), (F v' Iv'). congruence.
    - intros v a r Iv Ir. destruct (F v Iv) as [If Ef], (F r Ir) as [If' Ef']. rewrite (po_move _ _ _ _ _ _ _ P v a r Iv), (po_move _ _ _ _ _ _ _ Q (f v) a (f r) If), Ef, Ef'. tauto.
    - intros v Iv. destruct (F v Iv) as [If Ef]. rewrite (po_final _ _ _ _ _ _ _ P v Iv), (po_final _ _ _ _ _ _ _ Q (f v) If), Ef. reflexivity.
  Qed.

  (** C136: two runs of the intersection return the same automaton, with its initial state, up to the names of the states. *)
  Theorem C136_intersection_order (g1 g2 : aut A) ord ord' fuel :
    A_initial g1 <> None -> A_initial g2 <> None -> valid_order ord -> valid_order ord' ->
    (A_num_edges g1 + 1) * (A_num_edges g2 + 1) + 2 <= fuel ->
    exists g h f, deterministic_intersection g1 g2 ord fuel = Some (g, Ok tt) /\ deterministic_intersection g1 g2 ord' fuel = Some (h, Ok tt) /\
      renames f g h /\ forall v, In v (A_vertices g) -> (A_initial g = Some v <-> A_initial h = Some (f v)).
  Proof.
    intros N1 N2 OV OV' L. destruct (C136_intersection_states g1 g2 ord fuel N1 N2 OV L) as (g & p & E & P & I & _).
    destruct (C136_intersection_states g1 g2 ord' fuel N1 N2 OV' L) as (h & q & E' & Q & J & _).
    destruct (product_renames g1 g2 g h _ _ _ p q P Q) as (f & R & F). exists g, h, f. split; [exact E|]. split; [exact E'|]. split; [exact R|].
    intros v Iv. rewrite (I v Iv), (J (f v) (rn_in _ _ _ R v Iv)), (F v Iv). reflexivity.
  Qed.

  (** C136: two runs of the union return the same states, final states and transitions up to the names of the states
      (the initial state may differ, see C125). *)
  Theorem C136_union_order (g1 g2 : aut A) ord ord' fuel : valid_order ord -> valid_order ord' ->
    (A_num_edges g1 + 1) * (A_num_edges g2 + 1) + 2 <= fuel ->
    exists g h f, deterministic_union g1 g2 ord fuel = Some (g, Ok tt) /\ deterministic_union g1 g2 ord' fuel = Some (h, Ok tt) /\ renames f g h.
  Proof.
    intros OV OV' L. destruct (C136_union_states g1 g2 ord fuel OV L) as (g & p & E & P & _).
    destruct (C136_union_states g1 g2 ord' fuel OV' L) as (h & q & E' & Q & _).
    destruct (product_renames g1 g2 g h _ _ _ p q P Q) as (f & R & _). exists g, h, f. auto.
  Qed.
End T.

(** (ab)* on three states and a(b|c)* . *)
Definition ex_left : aut nat := fst (runs A_call (A_init 3) [AAddEdge 0 1 1; AAddEdge 1 2 2; AAddEdge 2 1 1; ASetFinal 2 true]).
Definition ex_right : aut nat := fst (runs A_call (A_init 2) [AAddEdge 0 1 1; AAddEdge 1 1 2; AAddEdge 1 1 3; ASetFinal 1 true]).
Example ex_C136 :
  match deterministic_union ex_left ex_right (fun _ l => l) 100, deterministic_union ex_left ex_right (fun _ l => rev l) 100,
        deterministic_intersection ex_left ex_right (fun _ l => l) 100 with
  | Some (u, Ok _), Some (u', Ok _), Some (i, Ok _) =>
      length (A_vertices u) = 6 /\ length (A_vertices i) = 3 /\ A_vertices i = [0; 1; 2] /\
      map (fun e => (source e, target e)) (A_edges u) <> map (fun e => (source e, target e)) (A_edges u') /\
      A_delta_word i (A_initial i) [1; 2] = Some 2 /\ A_is_final i 2 = true /\ A_is_final i 1 = false /\ A_is_final u 1 = true
  | _, _, _ => False
  end.
Proof. vm_compute. repeat split; discriminate. Qed.
Example ex_C136_starts : both_start ex_left ex_right /\ one_starts ex_left ex_right /\
  A_initial ex_left <> None /\ A_initial ex_right <> None.
Proof. split; [exists 1; vm_compute; split; discriminate|]. split; [exists 1; vm_compute; discriminate|]. split; discriminate. Qed.

Print Assumptions C136_union_states.
Print Assumptions C136_intersection_states.
Print Assumptions C136_intersection_order.
Print Assumptions C136_union_order.
