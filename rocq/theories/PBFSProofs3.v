(** Runs of deterministic_intersection and deterministic_union. *)
From Verif Require Import Base BaseProofs Graph GraphProofs Automaton AutomatonSpec AutomatonProofs
  Trie TrieSpec TrieProofs PBFS PBFSProofs PBFSProofs2.
#[local] Arguments dkeys : simpl never.

Section P.
  Context {A : Type} {EA : EqDec A}.
  Variable g1 g2 : aut A.
  Notation p0 := (p0 g1 g2).
  Notation pw := (pw g1 g2).
  Notation succ := (succ g1 g2).
  Notation fin1 := (fin1 g1).
  Notation fin2 := (fin2 g2).

  Section Fold.
    Variable op : bool -> bool -> bool.
    Variable dom : qpair -> Prop.
    Hypothesis dom_live : forall p, dom p -> live p.
    Variable sel : qpair -> A -> Prop.
    Variable he : (aut A * dict qpair nat) -> medge -> medge -> A -> (aut A * dict qpair nat) * res unit.

    Lemma product_fold ev : 
      (forall p a, In (EvEdge p a) ev ->
         (sel p a /\ dom p /\ dom (succ p a) /\
          forall s, he s (get_edge g1 (fst p) a) (get_edge g2 (snd p) a) a =
                    add_product_edge op g1 g2 s (get_edge g1 (fst p) a) (get_edge g2 (snd p) a) a) \/
         (~ sel p a /\ forall s, he s (get_edge g1 (fst p) a) (get_edge g2 (snd p) a) a = (s, Ok tt))) ->
      forall s E M, Pinv g1 g2 op dom s E M ->
      exists s', foreach (handle g1 g2 he no_vertex) s ev = (s', Ok tt) /\
        Pinv g1 g2 op dom s' (fun x => E x \/ (In (EvEdge (fst x) (snd x)) ev /\ sel (fst x) (snd x)))
          (fun q => M q \/ exists p a, In (EvEdge p a) ev /\ sel p a /\ (q = p \/ q = succ p a)).
    Proof.
      induction ev as [|e ev IH]; intros Hev s E M I.
      - exists s. split; [reflexivity|]. eapply Pinv_ext; [exact I| |]; intros x; split; try tauto.
        + intros [X|[[] _]]. exact X.
        + intros [X|(p & a & [] & _)]. exact X.
      - assert (Hev' : forall p a, In (EvEdge p a) ev ->
         (sel p a /\ dom p /\ dom (succ p a) /\
          forall s, he s (get_edge g1 (fst p) a) (get_edge g2 (snd p) a) a =
                    add_product_edge op g1 g2 s (get_edge g1 (fst p) a) (get_edge g2 (snd p) a) a) \/
         (~ sel p a /\ forall s, he s (get_edge g1 (fst p) a) (get_edge g2 (snd p) a) a = (s, Ok tt))) by (intros p a X; apply Hev; right; exact X).
        specialize (IH Hev'). cbn [foreach]. destruct e as [p a|p]; cbn [handle].
        + destruct (Hev p a (or_introl eq_refl)) as [(Sp & Dp & Dr & Eq)|(Sp & Eq)]; rewrite Eq.
          * destruct (add_product_edge_spec g1 g2 op dom dom_live s E M p a I Dp Dr) as (s1 & -> & I1).
            destruct (IH _ _ _ I1) as (s' & -> & I'). exists s'. split; [reflexivity|].
            eapply Pinv_ext; [exact I'| |].
            -- intros [q b]. cbn [fst snd In]. split.
               ++ intros [[X|X]|[X Y]]; [auto|injection X as -> ->; auto|auto].
               ++ intros [X|[[X|X] Y]]; [auto|injection X as -> ->; auto|auto].
            -- intros q. split.
               ++ intros [[X|X]|(r & b & X & Y)]; [auto| |right; exists r, b; cbn; tauto].
                  right. exists p, a. cbn [In]. tauto.
               ++ intros [X|(r & b & [X|X] & Y & Z)]; [auto| |right; exists r, b; auto].
                  injection X as <- <-. auto.
          * destruct (IH _ _ _ I) as (s' & -> & I'). exists s'. split; [reflexivity|].
            eapply Pinv_ext; [exact I'| |].
            -- intros [q b]. cbn [fst snd In]. split; [tauto|]. intros [X|[[X|X] Y]]; [auto|injection X as -> ->; contradiction|auto].
            -- intros q. split.
               ++ intros [X|(r & b & X & Y)]; [auto|right; exists r, b; cbn; tauto].
               ++ intros [X|(r & b & [X|X] & Y & Z)]; [auto| |right; exists r, b; auto]. injection X as <- <-. contradiction.
        + cbn [no_vertex]. destruct (IH _ _ _ I) as (s' & -> & I'). exists s'. split; [reflexivity|].
          eapply Pinv_ext; [exact I'| |].
          * intros [q b]. cbn [fst snd In]. split; [tauto|]. intros [X|[[X|X] Y]]; [auto|discriminate|auto].
          * intros q. split.
            -- intros [X|(r & b & X & Y)]; [auto|right; exists r, b; cbn; tauto].
            -- intros [X|(r & b & [X|X] & Y & Z)]; [auto|discriminate|right; exists r, b; auto].
    Qed.
  End Fold.

  Definition both (p : qpair) : Prop := fst p <> None /\ snd p <> None.
  Lemma both_live p : both p -> live p.
  Proof. intros [X _] E. apply X. rewrite E. reflexivity. Qed.
  Lemma both_snoc w a : both (pw (w ++ [a])) -> both (pw w).
  Proof.
    rewrite pw_snoc. unfold both, PBFSProofs.succ. cbn [fst snd]. intros [X Y]. split; intros E; [apply X|apply Y]; rewrite E; reflexivity.
  Qed.
  Lemma walk_snoc E w a : forall p, walk g1 g2 E p (w ++ [a]) <-> walk g1 g2 E p w /\ E (pwf g1 g2 p w, a).
  Proof.
    induction w as [|b w IH]; intros p; cbn; [tauto|]. rewrite IH. tauto.
  Qed.
  Lemma walk_pw E w : walk g1 g2 E p0 w <-> forall u a v, w = u ++ a :: v -> E (pw u, a).
  Proof.
    induction w as [|a w IH] using rev_ind.
    - split; [intros _ u a v X; destruct u; discriminate|intros; exact I].
    - rewrite walk_snoc, IH, pwf_pw. split.
      + intros [X Y] u b v Ew. destruct v as [|c v] using rev_ind.
        * apply app_inj_tail in Ew. destruct Ew as [-> ->]. exact Y.
        * rewrite app_comm_cons, app_assoc in Ew. apply app_inj_tail in Ew. destruct Ew as [-> ->]. eapply X. reflexivity.
      + intros X. split; [|apply (X w a []); reflexivity]. intros u b v ->. apply (X u b (v ++ [a])).
        rewrite <- app_assoc. reflexivity.
  Qed.

  (** ** Intersection *)
  Definition inter_pp (p : qpair) : bool := match p with (Some (S _), Some (S _)) => true | _ => false end.

  Lemma inter_expl_both : both p0 -> forall p, expl g1 g2 inter_pp p0 p -> both p.
  Proof.
    intros B p E. destruct E as [|p a E L P]; [exact B|]. destruct (succ p a) as [[[|x]|] [[|y]|]]; try discriminate. split; discriminate.
  Qed.

  (** the pairs with a component 0 are never pushed: every proper prefix of the word leads to the
      source or to a pair without 0 *)
  Definition zero_free (w : list A) : Prop := forall u a v, w = u ++ a :: v -> pw u = p0 \/ inter_pp (pw u) = true.

  Lemma zero_free_expl w : zero_free w -> both (pw w) -> forall u a v, w = u ++ a :: v -> expl g1 g2 inter_pp p0 (pw u).
  Proof.
    intros Z B u. induction u as [|b u IH] using rev_ind; intros a v Ew; [apply expl_0|].
    assert (E : expl g1 g2 inter_pp p0 (pw u)) by (apply (IH b (a :: v)); rewrite Ew, <- app_assoc; reflexivity).
    destruct (Z _ _ _ Ew) as [X|X]; [rewrite X; apply expl_0|]. rewrite pw_snoc in *. apply expl_S; [exact E| |exact X].
    intros Y. rewrite Y in X. discriminate.
  Qed.
  Lemma expl_zero_free p : expl g1 g2 inter_pp p0 p -> p = p0 \/ inter_pp p = true.
  Proof. intros E. destruct E; auto. Qed.

  Lemma inter_run ord fuel : A_initial g1 <> None -> A_initial g2 <> None -> valid_order ord -> pbfs_fuel g1 g2 <= fuel ->
    exists g12, deterministic_intersection g1 g2 ord fuel = Some (g12, Ok tt) /\
      forall w, A_accepts g12 w = true <->
         (A_accepts g1 w = true /\ A_accepts g2 w = true) /\ (w <> [] \/ exists a, both (pw [a])) /\ zero_free w.
  Proof.
    intros N1 N2 OV L.
    assert (B0 : both p0) by (split; assumption).
    destruct (pbfs_events g1 g2 ord inter_push inter_pp OV) with (fuel := fuel) as (ev & R & _ & HE & _ & _); [|exact L|].
    { intros p a E _. apply (inter_expl_both B0) in E. destruct p as [[q1|] [q2|]], E as [E1 E2]; try (cbn in *; congruence).
      unfold inter_push, PBFSProofs.succ. cbn. destruct (A_delta g1 q1 a) as [[|x]|], (A_delta g2 q2 a) as [[|y]|]; reflexivity. }
    unfold deterministic_intersection. rewrite R. cbn [no_vertex].
    destruct (product_fold andb both) with (sel := fun p a => both (succ p a)) (he := inter_edge g1 g2) (ev := ev)
      (s := (A_init (A:=A) 0, @nil (qpair * nat))) (E := fun _ : qpair * A => False) (M := fun _ : qpair => False) as (s' & E' & I').
    - apply both_live.
    - intros p a X. apply HE in X. destruct X as [E Lp]. apply (inter_expl_both B0) in E.
      destruct p as [[q1|] [q2|]], E as [E1 E2]; try (cbn in *; congruence).
      unfold both, PBFSProofs.succ, inter_edge. cbn.
      destruct (A_delta g1 q1 a) as [x|]; [destruct (A_delta g2 q2 a) as [y|]|].
      + left. repeat split; try discriminate.
      + right. split; [intros [_ X]; congruence|reflexivity].
      + right. split; [intros [X _]; congruence|reflexivity].
    - apply Pinv_init.
    - rewrite E'. destruct s' as [g12 m]. exists g12. split; [reflexivity|].
      set (Ed := fun x : qpair * A => False \/ In (EvEdge (fst x) (snd x)) ev /\ both (succ (fst x) (snd x))) in *.
      set (Mn := fun q : qpair => False \/ exists p a, In (EvEdge p a) ev /\ both (succ p a) /\ (q = p \/ q = succ p a)) in *.
      assert (Acc : forall w, A_accepts g1 w = true /\ A_accepts g2 w = true <-> fin1 (pw w) && fin2 (pw w) = true).
      { intros w. rewrite !accepts_final, andb_true_iff. reflexivity. }
      assert (Cases : Mn p0 \/ forall q, ~ Mn q).
      { destruct (in_dec' p0 (flat_map (fun e => match e with EvEdge p a => if match succ p a with (Some _, Some _) => true | _ => false end then [p; succ p a] else [] | EvVertex _ => [] end) ev)) as [D|D].
        - left. right. apply in_flat_map in D. destruct D as ([p a|p] & Ie & X); [|destruct X].
          destruct (succ p a) as [[x|] [y|]] eqn:Es; try (destruct X; fail). exists p, a. split; [exact Ie|]. rewrite Es.
          split; [split; discriminate|]. destruct X as [X|[X|[]]]; auto.
        - right. intros q [[]|(p & a & Ie & Bs & _)]. apply HE in Ie. destruct Ie as [Ep _].
          (* some explored pair has a common successor: so has the source *)
          assert (B1 : forall p, expl g1 g2 inter_pp p0 p -> forall a, both (succ p a) -> exists b, both (succ p0 b)).
          { clear -B0. intros p E. induction E as [|p a E IH Lp P]; intros b B; [exists b; exact B|].
            apply (IH a). destruct (succ p a) as [[[|x]|] [[|y]|]]; try discriminate. split; discriminate. }
          destruct (B1 p Ep a Bs) as (b & Bb). apply D. apply in_flat_map. exists (EvEdge p0 b). split.
          + apply HE. split; [apply expl_0|apply both_live; exact Bb].
          + destruct Bb as [X Y]. destruct (succ p0 b) as [[x|] [y|]]; cbn in *; try congruence. left. reflexivity. }
      assert (Bacc : forall w, fin1 (pw w) && fin2 (pw w) = true -> both (pw w)).
      { intros w F. apply Acc in F. rewrite !accepts_final in F. unfold both, PBFSProofs2.pw. cbn [fst snd].
        destruct F as [F1 F2]. split; intros X; rewrite X in *; discriminate. }
      assert (Bpre : forall u a v, both (pw (u ++ a :: v)) -> both (pw (u ++ [a]))).
      { intros u a v Bw. induction v as [|c v IH] using rev_ind; [exact Bw|]. apply IH.
        replace (u ++ a :: v ++ [c]) with ((u ++ a :: v) ++ [c]) in Bw by (rewrite <- app_assoc; reflexivity).
        apply both_snoc in Bw. exact Bw. }
      destruct Cases as [M0|M0].
      + assert (PA : forall w, A_accepts g12 w = true <-> walk g1 g2 Ed p0 w /\ fin1 (pw w) && fin2 (pw w) = true).
        { apply (product_accepts0 g1 g2 andb both _ _ _ I' M0).
          - unfold ini, A_is_initial_opt, PBFSProofs2.p0. cbn [fst snd]. rewrite !eqb_refl. reflexivity.
          - intros p _ Ip. unfold ini, A_is_initial_opt in Ip. apply andb_true_iff in Ip. destruct Ip as [X Y].
            apply (proj1 (eqb_eq _ _)) in X. apply (proj1 (eqb_eq _ _)) in Y. destruct p as [q1 q2]. cbn [fst snd] in *.
            unfold PBFSProofs2.p0. congruence. }
        intros w. rewrite PA, Acc, walk_pw. split.
        * intros [Wk F]. split; [exact F|]. split.
          -- destruct w as [|a w]; [|left; discriminate]. right.
             destruct M0 as [[]|(p & a & Ie & Bs & _)]. apply HE in Ie. destruct Ie as [Ep _].
             assert (B1 : forall p, expl g1 g2 inter_pp p0 p -> forall a, both (succ p a) -> exists b, both (succ p0 b)).
             { clear -B0. intros q E. induction E as [|q b E IH Lp P]; intros c B; [exists c; exact B|].
               apply (IH b). destruct (succ q b) as [[[|x]|] [[|y]|]]; try discriminate. split; discriminate. }
             destruct (B1 p Ep a Bs) as (b & Bb). exists b. change [b] with ([] ++ [b]). rewrite pw_snoc. exact Bb.
          -- intros u a v Ew. destruct (Wk u a v Ew) as [[]|[Ie _]]. apply HE in Ie. apply expl_zero_free. apply Ie.
        * intros (F & _ & Z). split; [|exact F]. intros u a v Ew. right. cbn [fst snd].
          pose proof (Bacc w F) as Bw. pose proof (zero_free_expl w Z Bw u a v Ew) as Eu.
          rewrite Ew in Bw. apply Bpre in Bw. rewrite pw_snoc in Bw. split; [|exact Bw].
          apply HE. split; [exact Eu|apply both_live; exact Bw].
      + pose proof (product_empty g1 g2 andb both _ _ _ I' M0) as PE. cbn [fst] in PE.
        intros w. rewrite PE, Acc. split; [discriminate|]. intros (F & C & _). exfalso.
        assert (X : exists a, both (pw [a])).
        { destruct C as [C|C]; [|exact C]. destruct w as [|a w]; [congruence|]. exists a.
          apply (Bpre [] a w). apply Bacc. exact F. }
        destruct X as (a & Ba). apply (M0 p0). right. exists p0, a. change [a] with ([] ++ [a]) in Ba. rewrite pw_snoc in Ba.
        split; [|split; [exact Ba|auto]]. apply HE. split; [apply expl_0|apply both_live; exact Ba].
  Qed.

  (** ** Union *)
  Lemma pwf_app u w : pwf g1 g2 (pw u) w = pw (u ++ w).
  Proof.
    rewrite <- !pwf_pw. generalize p0. induction u as [|a u IH]; intros p; cbn; [reflexivity|apply IH].
  Qed.
  Lemma walk_from E x w : walk g1 g2 E (pw x) w <-> forall u a v, w = u ++ a :: v -> E (pw (x ++ u), a).
  Proof.
    revert x. induction w as [|b w IH]; intros x; cbn [walk].
    - split; [intros _ u a v X; destruct u; discriminate|auto].
    - rewrite <- pw_snoc, IH. split.
      + intros [X Y] u a v Ew. destruct u as [|c u]; cbn in Ew; injection Ew as -> Ew.
        * rewrite app_nil_r. exact X.
        * subst w. specialize (Y u a v eq_refl). rewrite <- app_assoc in Y. exact Y.
      + intros X. split; [specialize (X [] b w eq_refl); rewrite app_nil_r in X; exact X|].
        intros u a v ->. rewrite <- app_assoc. apply (X (b :: u) a v). reflexivity.
  Qed.

  Lemma union_run ord fuel : valid_order ord -> pbfs_fuel g1 g2 <= fuel ->
    exists g12 x, deterministic_union g1 g2 ord fuel = Some (g12, Ok tt) /\
      (fst (pw x) = A_initial g1 \/ snd (pw x) = A_initial g2) /\
      forall w, A_accepts g12 w = true <->
         (A_accepts g1 (x ++ w) = true \/ A_accepts g2 (x ++ w) = true) /\ (x ++ w <> [] \/ exists a, live (pw [a])).
  Proof.
    intros OV L. destruct (always_events g1 g2 ord OV fuel L) as (ev & R & _ & HE & _ & _).
    unfold deterministic_union. rewrite R. cbn [no_vertex].
    set (dom := fun p => live p /\ exists w, p = pw w).
    destruct (product_fold orb dom) with (sel := fun (_ : qpair) (_ : A) => True) (he := add_product_edge orb g1 g2) (ev := ev)
      (s := (A_init (A:=A) 0, @nil (qpair * nat))) (E := fun _ : qpair * A => False) (M := fun _ : qpair => False) as (s' & E' & I').
    - intros p [Lp _]. exact Lp.
    - intros p a X. left. apply HE in X. destruct X as (w & -> & Lw). split; [exact I|]. split; [|split].
      + split; [eapply live_snoc; exact Lw|exists w; reflexivity].
      + rewrite <- pw_snoc. split; [exact Lw|eexists; reflexivity].
      + reflexivity.
    - apply Pinv_init.
    - rewrite E'. destruct s' as [g12 m]. exists g12.
      assert (Acc : forall w, A_accepts g1 w = true \/ A_accepts g2 w = true <-> fin1 (pw w) || fin2 (pw w) = true).
      { intros w. rewrite !accepts_final, orb_true_iff. reflexivity. }
      assert (Lacc : forall w, fin1 (pw w) || fin2 (pw w) = true -> live (pw w)).
      { intros w F E. rewrite E in F. discriminate. }
      set (Ed := fun x : qpair * A => False \/ In (EvEdge (fst x) (snd x)) ev /\ True) in *.
      set (Mn := fun q : qpair => False \/ exists p a, In (EvEdge p a) ev /\ True /\ (q = p \/ q = succ p a)) in *.
      assert (Pre : forall w a, live (pw (a :: w)) -> live (pw [a])).
      { intros w a. induction w as [|c w IH] using rev_ind; [auto|]. intros X. apply IH. apply live_snoc with c.
        rewrite <- app_comm_cons. exact X. }
      assert (First : (exists a, live (pw [a])) -> Mn p0).
      { intros (a & La). right. exists p0, a. split; [|auto]. apply HE. exists []. split; [reflexivity|exact La]. }
      assert (Cases : (exists a, live (pw [a])) \/ forall a, ~ live (pw [a])).
      { destruct (sunion (A_sigma g1 (A_initial g1)) (A_sigma g2 (A_initial g2))) as [|a l] eqn:Es.
        - right. intros a La. assert (X : In a (sunion (A_sigma g1 (A_initial g1)) (A_sigma g2 (A_initial g2)))).
          { apply In_sunion. rewrite !In_sigma. change [a] with ([] ++ [a]) in La. rewrite pw_snoc in La.
            unfold live, PBFSProofs.succ in La. cbn [PBFSProofs2.pw A_delta_word fst snd] in La.
            destruct (odelta g1 (A_initial g1) a), (odelta g2 (A_initial g2) a); try congruence; try (left; congruence); right; congruence. }
          rewrite Es in X. destruct X.
        - left. exists a. assert (X : In a (sunion (A_sigma g1 (A_initial g1)) (A_sigma g2 (A_initial g2)))) by (rewrite Es; left; reflexivity).
          apply In_sunion in X. rewrite !In_sigma in X. change [a] with ([] ++ [a]). rewrite pw_snoc.
          unfold live, PBFSProofs.succ. cbn [PBFSProofs2.pw A_delta_word fst snd]. intros Y. injection Y as Y1 Y2. tauto. }
      destruct Cases as [C|C].
      + destruct (product_accepts g1 g2 orb dom _ _ _ I') as (p & [[]|(p' & a' & Ie & _ & Mp)] & Ip & PA).
        { exists p0. split; [exact (First C)|]. unfold ini, A_is_initial_opt, PBFSProofs2.p0. cbn [fst snd]. rewrite !eqb_refl. reflexivity. }
        assert (Ex : exists x, p = pw x).
        { apply HE in Ie. destruct Ie as (x & -> & _). destruct Mp as [-> | ->]; [exists x; reflexivity|].
          exists (x ++ [a']). rewrite pw_snoc. reflexivity. }
        destruct Ex as (x & ->). exists x. split; [reflexivity|]. split.
        { unfold ini, A_is_initial_opt in Ip. apply orb_true_iff in Ip.
          destruct Ip as [Ip|Ip]; apply (proj1 (eqb_eq _ _)) in Ip; [left|right]; symmetry; exact Ip. }
        intros w. cbn [fst] in PA. rewrite PA, Acc, pwf_app, walk_from. split; [tauto|]. intros [F _]. split; [|exact F].
        intros u a v ->. right. split; [|exact I]. cbn [fst snd]. apply HE. exists (x ++ u). split; [reflexivity|].
        apply Lacc in F. rewrite app_assoc in F. revert F. generalize (x ++ u). clear. intros y.
        induction v as [|c v IH] using rev_ind; [auto|]. intros F. apply IH. apply live_snoc with c.
        rewrite <- app_assoc. exact F.
      + assert (M0 : forall q, ~ Mn q).
        { intros q [[]|(p & a & Ie & _)]. apply HE in Ie. destruct Ie as (w & _ & Lw). destruct w as [|b w]; [apply (C a); exact Lw|].
          apply (C b). apply (Pre (w ++ [a])). exact Lw. }
        pose proof (product_empty g1 g2 orb dom _ _ _ I' M0) as PE. cbn [fst] in PE. exists []. split; [reflexivity|].
        split; [left; reflexivity|]. intros w. cbn [app]. rewrite PE, Acc. split; [discriminate|].
        intros [F [N|(a & La)]]; [|exfalso; apply (C a); exact La]. exfalso. destruct w as [|a w]; [congruence|].
        apply (C a). apply (Pre w). apply Lacc. exact F.
  Qed.
End P.
