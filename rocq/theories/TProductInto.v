(** Theorem C139: the products of automata built in an automaton given by the caller. *)
From Verif Require Import Graph GraphProofs Automaton AutomatonSpec AutomatonProofs
  PBFS PBFSProofs PBFSProofs2 PBFSProofs3 ProductInto Base BaseProofs.
#[local] Arguments dkeys : simpl never.

(** ** Specification *)
Section S.
  Context {A : Type} {EA : EqDec A}.

  (** The next vertex of [g] is larger than its vertices (true after any calls). *)
  Definition numbered (g : aut A) : Prop := forall v, In v (A_vertices g) -> v < au_last g.

  (** [h] is [g], unchanged, beside a copy of [d] whose states are shifted by the next number of [g]: the flags "final"
      that [g] already had on these numbers remain; the initial state is that of [d] if [d] has a state. *)
  Record beside (g d h : aut A) : Prop := {
    be_vertices : A_vertices h = A_vertices g ++ map (fun v => au_last g + v) (A_vertices d);
    be_old : forall v a, v < au_last g -> A_delta h v a = A_delta g v a;
    be_new : forall v a, A_delta h (au_last g + v) a = option_map (fun r => au_last g + r) (A_delta d v a);
    be_old_final : forall v, v < au_last g -> A_is_final h v = A_is_final g v;
    be_new_final : forall v, A_is_final h (au_last g + v) = A_is_final g (au_last g + v) || A_is_final d v;
    be_initial : A_initial h = match A_vertices d with [] => A_initial g | _ :: _ => option_map (fun v => au_last g + v) (A_initial d) end;
    be_numbered : numbered h }.

  (** What [h] accepts when the product [d] was built in [g]: the words of [d] if [d] has a state and [g] marked as final
      no number to come; the words of [g] if [d] has no state. *)
  Definition words_after (g d h : aut A) : Prop :=
    (A_vertices d <> [] -> (forall v, au_last g <= v -> A_is_final g v = false) -> forall w, A_accepts h w = A_accepts d w) /\
    (A_vertices d = [] -> forall w, A_accepts h w = A_accepts g w).
End S.

Section P.
  Context {A : Type} {EA : EqDec A}.
  Variables g1 g2 g : aut A.
  Hypothesis NG : numbered g.
  Let k := au_last g.
  Notation sh := (fun v => k + v).
  Variable op : bool -> bool -> bool.
  Variable dom : qpair -> Prop.
  Hypothesis dom_live : forall p, dom p -> live p.
  Notation pst := (aut A * dict qpair nat)%type.

  Record rel (s s' : pst) : Prop := {
    r_last : au_last (fst s') = k + au_last (fst s);
    r_vert : A_vertices (fst s') = A_vertices g ++ map sh (A_vertices (fst s));
    r_old : forall v a, v < k -> A_delta (fst s') v a = A_delta g v a;
    r_new : forall v a, A_delta (fst s') (k + v) a = option_map sh (A_delta (fst s) v a);
    r_oldf : forall v, v < k -> A_is_final (fst s') v = A_is_final g v;
    r_newf : forall v, A_is_final (fst s') (k + v) = A_is_final g (k + v) || A_is_final (fst s) v;
    r_map : forall p, dget (snd s') p = option_map sh (dget (snd s) p);
    r_q0 : A_initial (fst s') = A_initial g /\ (forall p v, dget (snd s) p = Some v -> ini g1 g2 op p = false) \/
           A_initial (fst s') = option_map sh (A_initial (fst s)) /\ exists p v, dget (snd s) p = Some v /\ ini g1 g2 op p = true }.

  Lemma delta_new_vertex (h : aut A) n : ~ In n (A_vertices h) -> forall x a, 
    match dget (dset (au_adj h) n []) x with None => None | Some d => dget d a end = A_delta h x a.
  Proof.
    intros NI x a. unfold A_delta. rewrite dget_dset. destruct (eqb_spec x n) as [->|]; [|reflexivity].
    rewrite (proj2 (dget_None (au_adj h) n) NI). reflexivity.
  Qed.

  Lemma rel_vertex s s' E M p : Pinv g1 g2 op dom s E M -> rel s s' -> dom p ->
    exists s1 s1' v, get_or_create op g1 g2 s (fst p) (snd p) = (s1, Ok v) /\ get_or_create op g1 g2 s' (fst p) (snd p) = (s1', Ok (k + v)) /\ rel s1 s1'.
  Proof.
    intros I R D. pose proof (dom_live p D) as Lp.
    assert (G : forall h m, get_or_create op g1 g2 (h, m) (fst p) (snd p) =
                match dget m p with Some v => ((h, m), Ok v) | None => add_product_vertex op g1 g2 (h, m) (fst p) (snd p) end).
    { intros h m. unfold get_or_create. cbn [fst snd]. destruct p as [[q1|] [q2|]]; cbn [fst snd]; try reflexivity. exfalso. apply Lp. reflexivity. }
    destruct s as [h m], s' as [h' m']. rewrite !G. pose proof (r_map _ _ R p) as RM. cbn [fst snd] in RM. rewrite RM.
    destruct (dget m p) as [v|] eqn:Em; cbn [option_map].
    - exists (h, m), (h', m'), v. auto.
    - destruct R as [R1 R2 R3 R4 R5 R6 R7 R8]. cbn [fst snd] in *.
      assert (N : ~ In (au_last h) (A_vertices h)) by (intros X; apply (v_lt _ _ _ _ _ _ _ I) in X; cbn in X; lia).
      assert (N' : ~ In (au_last h') (A_vertices h')).
      { rewrite R2, R1. intros X. apply in_app_iff in X. destruct X as [X|X]; [apply NG in X; unfold k in X; lia|].
        apply in_map_iff in X. destruct X as (v & Y & X). apply (v_lt _ _ _ _ _ _ _ I) in X. cbn in X. lia. }
      unfold add_product_vertex, A_add_vertex.
      set (i := op (A_is_initial_opt g1 (fst p)) (A_is_initial_opt g2 (snd p))).
      set (f := op (A_is_final_opt g1 (fst p)) (A_is_final_opt g2 (snd p))).
      eexists _, _, (au_last h). split; [reflexivity|]. split; [rewrite <- R1; reflexivity|]. destruct p as [q1 q2]. cbn [fst snd] in *.
      assert (PL : forall (b c : bool) (x : aut A) y z, au_last (if c then A_set_final (if b then A_set_initial x y true else x) z true else if b then A_set_initial x y true else x) = au_last x) by (intros [] []; reflexivity).
      assert (PA : forall (b c : bool) (x : aut A) y z, au_adj (if c then A_set_final (if b then A_set_initial x y true else x) z true else if b then A_set_initial x y true else x) = au_adj x) by (intros [] []; reflexivity).
      assert (PF : forall (b c : bool) (x : aut A) y z v, A_is_final (if c then A_set_final (if b then A_set_initial x y true else x) z true else if b then A_set_initial x y true else x) v = if c then if eqb v z then true else A_is_final x v else A_is_final x v) by (intros [] []; reflexivity).
      assert (PQ : forall (b c : bool) (x : aut A) y z, A_initial (if c then A_set_final (if b then A_set_initial x y true else x) z true else if b then A_set_initial x y true else x) = if b then y else A_initial x) by (intros [] []; reflexivity).
      constructor; cbn [fst snd]; rewrite ?PL, ?PQ; cbn [au_last].
      + lia.
      + unfold A_vertices. rewrite !PA. cbn [au_adj]. change (dkeys (dset (au_adj h') (au_last h') []) = A_vertices g ++ map sh (dkeys (dset (au_adj h) (au_last h) []))).
        rewrite !dkeys_dset_new by assumption. change (A_vertices h' ++ [au_last h'] = A_vertices g ++ map sh (A_vertices h ++ [au_last h])).
        rewrite R2, R1, map_app, app_assoc. reflexivity.
      + intros v a L. unfold A_delta at 1. rewrite PA. cbn [au_adj]. rewrite (delta_new_vertex h' _ N'). apply R3, L.
      + intros v a. unfold A_delta. rewrite !PA. cbn [au_adj]. rewrite (delta_new_vertex h' _ N'), (delta_new_vertex h _ N). apply R4.
      + intros v L. rewrite PF. unfold A_is_final at 1 2. cbn [au_final]. fold (A_is_final h' v). rewrite (R5 v L).
        destruct f; [|reflexivity]. destruct (eqb_spec v (au_last h')) as [->|]; [|reflexivity]. lia.
      + intros v. rewrite !PF. unfold A_is_final at 1 2 4 5. cbn [au_final]. fold (A_is_final h' (k + v)) (A_is_final h v). rewrite R6, R1.
        destruct f; [|reflexivity]. destruct (eqb_spec (k + v) (k + au_last h)) as [X|X], (eqb_spec v (au_last h)) as [Y|Y]; try lia; rewrite ?orb_true_r; reflexivity.
      + intros p. rewrite !dget_dset, R1, R7. destruct (eqb p (q1, q2)); reflexivity.
      + cbn [A_initial au_q0]. fold (A_initial h') (A_initial h). change i with (ini g1 g2 op (q1, q2)). destruct (ini g1 g2 op (q1, q2)) eqn:EI.
        * right. rewrite R1. split; [reflexivity|]. exists (q1, q2), (au_last h). rewrite dget_dset, eqb_refl. auto.
        * destruct R8 as [[R8 R9]|[R8 (p & v & X & Y)]].
          -- left. split; [exact R8|]. intros p v X. rewrite dget_dset in X. destruct (eqb_spec p (q1, q2)) as [->|]; [exact EI|eapply R9; exact X].
          -- right. split; [exact R8|]. exists p, v. split; [|exact Y]. rewrite dget_dset. destruct (eqb_spec p (q1, q2)) as [->|]; [congruence|exact X].
  Qed.

  Lemma rel_edge s s' E M p a : Pinv g1 g2 op dom s E M -> rel s s' -> dom p -> dom (succ g1 g2 p a) ->
    exists s1 s1', add_product_edge op g1 g2 s (get_edge g1 (fst p) a) (get_edge g2 (snd p) a) a = (s1, Ok tt) /\
      add_product_edge op g1 g2 s' (get_edge g1 (fst p) a) (get_edge g2 (snd p) a) a = (s1', Ok tt) /\ rel s1 s1'.
  Proof.
    intros I R Dp Dr. unfold add_product_edge. rewrite !source_get_edge, !target_get_edge.
    destruct (rel_vertex s s' E M p I R Dp) as (s1 & s1' & v & G1 & G1' & R1).
    destruct (get_or_create_spec g1 g2 op dom dom_live s E M p I Dp) as (t1 & tv & T1 & Ev & I1 & _). rewrite G1 in T1. injection T1 as <- <-.
    change (odelta g1 (fst p) a) with (fst (succ g1 g2 p a)). change (odelta g2 (snd p) a) with (snd (succ g1 g2 p a)).
    destruct (rel_vertex s1 s1' _ _ (succ g1 g2 p a) I1 R1 Dr) as (s2 & s2' & r & G2 & G2' & R2).
    destruct (get_or_create_spec g1 g2 op dom dom_live s1 _ _ (succ g1 g2 p a) I1 Dr) as (t2 & tr & T2 & Er & I2 & O2). rewrite G2 in T2. injection T2 as <- <-.
    rewrite G1, G1', G2, G2'. apply O2 in Ev. clear G1 G1' G2 G2' R1 I1 O2 I R s s' s1 s1'. destruct s2 as [h m], s2' as [h' m']. cbn [fst snd] in *.
    assert (Old : forall r', A_delta h v a = Some r' -> r' = r).
    { intros r' X. apply (v_edge _ _ _ _ _ _ _ I2) in X. destruct X as (p' & X & _ & Z). cbn [fst snd] in *.
      assert (p' = p) by (eapply (v_inj _ _ _ _ _ _ _ I2); cbn; eassumption). subst p'. congruence. }
    assert (Iv : In v (A_vertices h)) by (apply (v_map _ _ _ _ _ _ _ I2) in Ev; tauto).
    destruct R2 as [Q1 Q2 Q3 Q4 Q5 Q6 Q7 Q8]. cbn [fst snd] in *.
    assert (Iv' : In (k + v) (A_vertices h')) by (rewrite Q2; apply in_app_iff; right; apply in_map_iff; exists v; auto).
    assert (AE : forall x u y, In u (A_vertices x) -> (forall y', A_delta x u a = Some y' -> y' = y) ->
              exists gx o, A_add_edge x u y a = (gx, Ok o) /\ A_vertices gx = A_vertices x /\ au_last gx = au_last x /\
              A_initial gx = A_initial x /\ (forall z, A_is_final gx z = A_is_final x z) /\
              (forall z b, A_delta gx z b = if eqb z u && eqb b a then Some y else A_delta x z b)).
    { clear. intros x u y Iu Old. apply key_dget in Iu. destruct Iu as (d & Ed). unfold A_add_edge. rewrite Ed.
      destruct (A_delta x u a) as [[|y']|] eqn:X; cbn [negb].
      2:{ exists x, (None, false). do 4 (split; [reflexivity|]). split; [reflexivity|]. intros z b.
          destruct (eqb_spec z u) as [->|]; [|reflexivity]. destruct (eqb_spec b a) as [->|]; [|reflexivity]. cbn. rewrite X. f_equal. apply Old. reflexivity. }
      all: eexists _, _; split; [reflexivity|]; split; [unfold A_vertices; cbn [au_adj]; apply dkeys_dset_old; eapply dget_Some_key; exact Ed|];
          split; [reflexivity|]; split; [reflexivity|]; split; [reflexivity|]; intros z b; unfold A_delta; cbn [au_adj]; rewrite dget_dset;
          (destruct (eqb_spec z u) as [->|]; [|reflexivity]); rewrite dget_dset, Ed; destruct (eqb b a); reflexivity. }
    destruct (AE h v r Iv Old) as (x & o & -> & X1 & X2 & X3 & X4 & X5).
    destruct (AE h' (k + v) (k + r) Iv') as (x' & o' & -> & Y1 & Y2 & Y3 & Y4 & Y5).
    { intros y' X. rewrite Q4 in X. destruct (A_delta h v a) as [r'|] eqn:Z; [|discriminate]. cbn in X. rewrite (Old r' eq_refl) in X. congruence. }
    exists (x, m), (x', m'). split; [reflexivity|]. split; [reflexivity|]. constructor; cbn [fst snd].
    - rewrite X2, Y2. exact Q1.
    - rewrite X1, Y1. exact Q2.
    - intros z b L. rewrite Y5. destruct (eqb_spec z (k + v)); [lia|]. apply Q3, L.
    - intros z b. rewrite X5, Y5. destruct (eqb_spec (k + z) (k + v)), (eqb_spec z v); try lia; [|apply Q4]. cbn. destruct (eqb b a); [reflexivity|apply Q4].
    - intros z L. rewrite Y4. apply Q5, L.
    - intros z. rewrite X4, Y4. apply Q6.
    - exact Q7.
    - rewrite X3, Y3. exact Q8.
  Qed.

  Lemma rel_init : rel (A_init 0, []) (g, []).
  Proof.
    constructor; cbn [fst snd].
    - cbn. unfold k. lia.
    - cbn. rewrite app_nil_r. reflexivity.
    - reflexivity.
    - intros v a. cbn. unfold A_delta. destruct (dget (au_adj g) (k + v)) eqn:X; [|reflexivity]. apply dget_Some_key, NG in X. unfold k in X. lia.
    - reflexivity.
    - intros v. cbn. rewrite orb_false_r. reflexivity.
    - reflexivity.
    - left. split; [reflexivity|]. discriminate.
  Qed.

  Section Fold.
    Variable sel : qpair -> A -> Prop.
    Variable he : pst -> medge -> medge -> A -> pst * res unit.
    Lemma rel_fold ev : 
      (forall p a, In (EvEdge p a) ev ->
         (sel p a /\ dom p /\ dom (succ g1 g2 p a) /\
          forall s, he s (get_edge g1 (fst p) a) (get_edge g2 (snd p) a) a =
                    add_product_edge op g1 g2 s (get_edge g1 (fst p) a) (get_edge g2 (snd p) a) a) \/
         (~ sel p a /\ forall s, he s (get_edge g1 (fst p) a) (get_edge g2 (snd p) a) a = (s, Ok tt))) ->
      forall s s' E M, Pinv g1 g2 op dom s E M -> rel s s' ->
      exists t t', foreach (handle g1 g2 he no_vertex) s ev = (t, Ok tt) /\ foreach (handle g1 g2 he no_vertex) s' ev = (t', Ok tt) /\ rel t t'.
    Proof.
      induction ev as [|e ev IH]; intros Hev s s' E M I R; [exists s, s'; auto|].
      specialize (IH (fun p a X => Hev p a (or_intror X))). cbn [foreach]. destruct e as [p a|p]; cbn [handle].
      - destruct (Hev p a (or_introl eq_refl)) as [(Sp & Dp & Dr & Eq)|(Sp & Eq)]; rewrite !Eq; [|eapply IH; eassumption].
        destruct (add_product_edge_spec g1 g2 op dom dom_live s E M p a I Dp Dr) as (s1 & E1 & I1).
        destruct (rel_edge s s' E M p a I R Dp Dr) as (t1 & t1' & F1 & F1' & R1). rewrite E1 in F1. injection F1 as <-. rewrite E1, F1'. eapply IH; eassumption.
      - cbn [no_vertex]. eapply IH; eassumption.
    Qed.
  End Fold.

  Lemma rel_beside s s' E M : Pinv g1 g2 op dom s E M -> rel s s' -> ((exists p, M p) -> exists p, M p /\ ini g1 g2 op p = true) -> beside g (fst s) (fst s').
  Proof.
    intros I [R1 R2 R3 R4 R5 R6 R7 R8] H. constructor; try assumption.
    - destruct R8 as [[Q N]|[Q (p & v & X & Y)]].
      + destruct (A_vertices (fst s)) as [|v l] eqn:V; [exact Q|]. exfalso.
        destruct (proj2 (v_all _ _ _ _ _ _ _ I) v) as (p & Dp); [rewrite V; left; reflexivity|].
        destruct H as (q & Mq & Iq); [exists p; apply (v_dom _ _ _ _ _ _ _ I); congruence|].
        apply (v_dom _ _ _ _ _ _ _ I) in Mq. destruct (dget (snd s) q) as [w|] eqn:Dq; [|congruence]. rewrite (N q w Dq) in Iq. discriminate.
      + rewrite Q. apply (v_map _ _ _ _ _ _ _ I) in X. destruct X as [X _]. destruct (A_vertices (fst s)); [destruct X|reflexivity].
    - intros v X. rewrite R2 in X. rewrite R1. apply in_app_iff in X. destruct X as [X|X]; [apply NG in X; unfold k; lia|].
      apply in_map_iff in X. destruct X as (u & <- & X). apply (v_lt _ _ _ _ _ _ _ I) in X. lia.
  Qed.

  Lemma words_beside s E M h : Pinv g1 g2 op dom s E M -> beside g (fst s) h -> words_after g (fst s) h.
  Proof.
    intros I [B1 B2 B3 B4 B5 B6 B7]. set (d := fst s) in *. split.
    - intros ND NF w. unfold A_accepts. rewrite B6. destruct (A_vertices d) as [|x l] eqn:V; [congruence|]. clear V ND.
      assert (X : forall w q, A_delta_word h (option_map (fun v => au_last g + v) q) w = option_map (fun v => au_last g + v) (A_delta_word d q w)).
      { clear -B3. induction w as [|a w IH]; intros [q|]; try reflexivity. cbn [A_delta_word option_map]. rewrite B3. apply IH. }
      rewrite X. destruct (A_delta_word d (A_initial d) w) as [r|]; [|reflexivity]. cbn [option_map]. rewrite B5, NF by lia. reflexivity.
    - intros V w.
      assert (DD : forall v a, A_delta h v a = A_delta g v a).
      { intros v a. destruct (Nat.lt_ge_cases v (au_last g)) as [L|L]; [apply B2, L|]. replace v with (au_last g + (v - au_last g)) by lia. rewrite B3.
        assert (X : forall (x : aut A) u, ~ In u (A_vertices x) -> A_delta x u a = None).
        { intros x u N. unfold A_delta. rewrite (proj2 (dget_None (au_adj x) u) N). reflexivity. }
        rewrite (X d), (X g); [reflexivity| |].
        - intros Y. apply NG in Y. lia.
        - rewrite V. intros []. }
      assert (FF : forall v, A_is_final h v = A_is_final g v).
      { intros v. destruct (Nat.lt_ge_cases v (au_last g)) as [L|L]; [apply B4, L|]. replace v with (au_last g + (v - au_last g)) by lia. rewrite B5.
        destruct (A_is_final d (v - au_last g)) eqn:F; [|apply orb_false_r]. apply (v_fin _ _ _ _ _ _ _ I) in F. destruct F as (p & X & _).
        apply (v_map _ _ _ _ _ _ _ I) in X. fold d in X. rewrite V in X. destruct X as [[] _]. }
      unfold A_accepts. rewrite B6, V.
      assert (X : forall w q, A_delta_word h q w = A_delta_word g q w).
      { clear -DD. induction w as [|a w IH]; intros [q|]; try reflexivity. cbn [A_delta_word]. rewrite DD. apply IH. }
      rewrite X. destruct (A_delta_word g (A_initial g) w) as [r|]; [apply FF|reflexivity].
  Qed.
End P.

Section T.
  Context {A : Type} {EA : EqDec A}.

  (** C139: deterministic_union builds the union beside the content of the given automaton. *)
  Theorem C139_union (g1 g2 g : aut A) ord fuel : numbered g -> valid_order ord ->
    (A_num_edges g1 + 1) * (A_num_edges g2 + 1) + 2 <= fuel ->
    exists d h, deterministic_union g1 g2 ord fuel = Some (d, Ok tt) /\ deterministic_union_in g1 g2 (Some g) ord fuel = Some (h, Ok tt) /\
      beside g d h /\ words_after g d h.
  Proof.
    intros NG OV L. destruct (always_events g1 g2 ord OV fuel L) as (ev & R & _ & HE & _ & _).
    unfold deterministic_union, deterministic_union_in. rewrite !R. cbn [no_vertex given_or_new].
    set (dom := fun p => live p /\ exists w, p = pw g1 g2 w).
    assert (DL : forall p, dom p -> live p) by (intros p [Lp _]; exact Lp).
    assert (HV : forall p a, In (EvEdge p a) ev -> (True /\ dom p /\ dom (succ g1 g2 p a) /\
      forall s, add_product_edge orb g1 g2 s (get_edge g1 (fst p) a) (get_edge g2 (snd p) a) a = add_product_edge orb g1 g2 s (get_edge g1 (fst p) a) (get_edge g2 (snd p) a) a) \/
      (~ True /\ forall s, add_product_edge orb g1 g2 s (get_edge g1 (fst p) a) (get_edge g2 (snd p) a) a = (s, Ok tt))).
    { intros p a X. left. apply HE in X. destruct X as (w & -> & Lw). split; [exact I|]. split; [|split].
      - split; [eapply live_snoc; exact Lw|exists w; reflexivity].
      - rewrite <- pw_snoc. split; [exact Lw|eexists; reflexivity].
      - reflexivity. }
    pose proof (Pinv_init g1 g2 orb dom) as I0.
    destruct (product_fold g1 g2 orb dom DL (fun _ _ => True) (add_product_edge orb g1 g2) ev HV _ _ _ I0) as (s & E & I').
    destruct (rel_fold g1 g2 g NG orb dom DL (fun _ _ => True) (add_product_edge orb g1 g2) ev HV _ _ _ _ I0 (rel_init g1 g2 g NG orb)) as (t & t' & F & F' & RL).
    rewrite E in F. injection F as <-. rewrite E, F'. 
    assert (B : beside g (fst s) (fst t')).
    { eapply rel_beside; [exact NG|exact I'|exact RL|]. intros (q & [[]|(p & a & Ie & _)]). exists (p0 g1 g2). split.
      - right. apply HE in Ie. destruct Ie as (w & _ & Lw). 
        assert (X : forall w a, live (pw g1 g2 (w ++ [a])) -> exists b, live (pw g1 g2 [b])).
        { clear. intros w. induction w as [|c w IH] using rev_ind; intros a La; [exists a; exact La|]. apply IH with c. eapply live_snoc. exact La. }
        destruct (X w a Lw) as (b & Lb). exists (p0 g1 g2), b. split; [apply HE; exists []; split; [reflexivity|exact Lb]|auto].
      - unfold ini, A_is_initial_opt, PBFSProofs2.p0. cbn [fst snd]. rewrite !eqb_refl. reflexivity. }
    pose proof (words_beside g1 g2 g NG _ _ _ _ _ _ I' B) as W. destruct s as [d m], t' as [h m']. exists d, h. auto.
  Qed.

  (** C139: deterministic_intersection builds the intersection beside the content of the given automaton. *)
  Theorem C139_intersection (g1 g2 g : aut A) ord fuel : A_initial g1 <> None -> A_initial g2 <> None -> numbered g -> valid_order ord ->
    (A_num_edges g1 + 1) * (A_num_edges g2 + 1) + 2 <= fuel ->
    exists d h, deterministic_intersection g1 g2 ord fuel = Some (d, Ok tt) /\ deterministic_intersection_in g1 g2 (Some g) ord fuel = Some (h, Ok tt) /\
      beside g d h /\ words_after g d h.
  Proof.
    intros N1 N2 NG OV L. assert (B0 : both (p0 g1 g2)) by (split; assumption).
    destruct (pbfs_events g1 g2 ord inter_push inter_pp OV) with (fuel := fuel) as (ev & R & _ & HE & _ & _); [|exact L|].
    { intros p a E _. apply (inter_expl_both g1 g2 B0) in E. destruct p as [[q1|] [q2|]], E as [E1 E2]; try (cbn in *; congruence).
      unfold inter_push, PBFSProofs.succ. cbn. destruct (A_delta g1 q1 a) as [[|x]|], (A_delta g2 q2 a) as [[|y]|]; reflexivity. }
    unfold deterministic_intersection, deterministic_intersection_in. rewrite !R. cbn [no_vertex given_or_new].
    assert (HV : forall p a, In (EvEdge p a) ev -> (both (succ g1 g2 p a) /\ both p /\ both (succ g1 g2 p a) /\
      forall s, inter_edge g1 g2 s (get_edge g1 (fst p) a) (get_edge g2 (snd p) a) a = add_product_edge andb g1 g2 s (get_edge g1 (fst p) a) (get_edge g2 (snd p) a) a) \/
      (~ both (succ g1 g2 p a) /\ forall s, inter_edge g1 g2 s (get_edge g1 (fst p) a) (get_edge g2 (snd p) a) a = (s, Ok tt))).
    { intros p a X. apply HE in X. destruct X as [E Lp]. apply (inter_expl_both g1 g2 B0) in E.
      destruct p as [[q1|] [q2|]], E as [E1 E2]; try (cbn in *; congruence).
      unfold both, PBFSProofs.succ, inter_edge. cbn.
      destruct (A_delta g1 q1 a) as [x|]; [destruct (A_delta g2 q2 a) as [y|]|].
      - left. repeat split; try discriminate.
      - right. split; [intros [_ X]; congruence|reflexivity].
      - right. split; [intros [X _]; congruence|reflexivity]. }
    pose proof (Pinv_init g1 g2 andb both) as I0.
    destruct (product_fold g1 g2 andb both both_live (fun p a => both (succ g1 g2 p a)) (inter_edge g1 g2) ev HV _ _ _ I0) as (s & E & I').
    destruct (rel_fold g1 g2 g NG andb both both_live (fun p a => both (succ g1 g2 p a)) (inter_edge g1 g2) ev HV _ _ _ _ I0 (rel_init g1 g2 g NG andb)) as (t & t' & F & F' & RL).
    rewrite E in F. injection F as <-. rewrite E, F'.
    assert (B : beside g (fst s) (fst t')).
    { eapply rel_beside; [exact NG|exact I'|exact RL|]. intros (q & [[]|(p & a & Ie & Bs & _)]). exists (p0 g1 g2). split.
      - right. apply HE in Ie. destruct Ie as [X _].
        assert (Y : forall p, expl g1 g2 inter_pp (p0 g1 g2) p -> forall a, both (succ g1 g2 p a) -> exists b, both (succ g1 g2 (p0 g1 g2) b)).
        { clear -B0. intros p X. induction X as [|p c X IH Lp Pp]; intros a Ba; [exists a; exact Ba|]. apply (IH c).
          destruct (succ g1 g2 p c) as [[[|x]|] [[|y]|]]; try discriminate Pp. split; discriminate. }
        destruct (Y p X a Bs) as (b & Bb). exists (p0 g1 g2), b. split; [|auto]. apply HE. split; [apply expl_0|apply both_live; exact Bb].
      - unfold ini, A_is_initial_opt, PBFSProofs2.p0. cbn [fst snd]. rewrite !eqb_refl. reflexivity. }
    pose proof (words_beside g1 g2 g NG _ _ _ _ _ _ I' B) as W. destruct s as [d m], t' as [h m']. exists d, h. auto.
  Qed.

  (** C139: without [g12] the product is built in a new automaton. *)
  Theorem C139_default (g1 g2 : aut A) ord fuel :
    deterministic_union_in g1 g2 None ord fuel = deterministic_union g1 g2 ord fuel /\
    deterministic_intersection_in g1 g2 None ord fuel = deterministic_intersection g1 g2 ord fuel /\
    deterministic_union_in g1 g2 (Some (A_init 0)) ord fuel = deterministic_union g1 g2 ord fuel /\
    deterministic_intersection_in g1 g2 (Some (A_init 0)) ord fuel = deterministic_intersection g1 g2 ord fuel.
  Proof. repeat split. Qed.

  (** C139: the hypothesis on the numbers holds after any calls. *)
  Theorem C139_numbered n (ops : list (aop A)) : numbered (fst (runs A_call (A_init n) ops)).
  Proof. destruct (arep_runs n ops) as [(L & KV & _ & _ & _ & _ & LT) _]. intros v. unfold A_vertices. rewrite KV, L. apply LT. Qed.
End T.
Print Assumptions C139_union.
Print Assumptions C139_intersection.
Print Assumptions C139_default.
Print Assumptions C139_numbered.

(** C139: "the given automaton accepts the words of the product afterwards" fails when the product has no state (the words of
    the given automaton remain) and after clear, which keeps the final flags of the numbers that are given again. *)
Definition in_ab : aut nat := fst (runs A_call (A_init 3) [AAddEdge 0 1 1; AAddEdge 1 2 2; ASetFinal 2 true]).
Definition in_b : aut nat := fst (runs A_call (A_init 2) [AAddEdge 0 1 2; ASetFinal 1 true]).
Definition in_used : aut nat := fst (runs A_call (A_init 2) [AAddEdge 0 1 3; ASetFinal 1 true]).
Definition in_cleared : aut nat := fst (runs A_call (A_init 2) [ASetFinal 1 true; AClear]).
Theorem C139_words_refuted : exists (g1 g2 g d h g' d' h' : aut nat) w,
  A_vertices g <> [] /\ A_vertices g' = [] /\
  deterministic_intersection g1 g2 (fun _ l => l) 20 = Some (d, Ok tt) /\ deterministic_intersection_in g1 g2 (Some g) (fun _ l => l) 20 = Some (h, Ok tt) /\
  A_accepts d w = false /\ A_accepts h w = true /\
  deterministic_union g1 g2 (fun _ l => l) 20 = Some (d', Ok tt) /\ deterministic_union_in g1 g2 (Some g') (fun _ l => l) 20 = Some (h', Ok tt) /\
  exists w', A_accepts d' w' = false /\ A_accepts h' w' = true.
Proof.
  exists in_ab, in_b, in_used. eexists _, _. exists in_cleared. eexists _, _. exists [3].
  split; [discriminate|]. split; [reflexivity|]. repeat (split; [vm_compute; reflexivity|]). exists [1]. split; vm_compute; reflexivity.
Qed.
Print Assumptions C139_words_refuted.

(** The hypotheses on a concrete case: the union of two automata built in an automaton with two states. *)
Example C139_example :
  numbered in_used /\ (forall v, au_last in_used <= v -> A_is_final in_used v = false) /\
  match deterministic_union_in in_ab in_b (Some in_used) (fun _ l => l) 20 with
  | Some (h, Ok _) => A_vertices h = [0; 1; 2; 3; 4; 5] /\ A_initial h = Some 2 /\ A_delta h 0 3 = Some 1 /\ map (A_accepts h) [[1; 2]; [2]; [3]; [1]] = [true; true; false; false]
  | _ => False
  end /\
  match deterministic_intersection_in in_ab in_ab (Some in_used) (fun _ l => l) 20 with
  | Some (h, Ok _) => A_vertices h = [0; 1; 2; 3; 4] /\ map (A_accepts h) [[1; 2]; [3]] = [true; false]
  | _ => False
  end.
Proof.
  split; [apply C139_numbered|]. split; [intros [|[|v]] L; [cbn in L; lia|cbn in L; lia|reflexivity]|]. split; vm_compute; repeat split.
Qed.
