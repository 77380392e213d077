(** The calls of parallel_breadth_first_search. *)
From Coq Require Import Sorted.
From Verif Require Import Graph GraphProofs Automaton AutomatonSpec AutomatonProofs Trie PBFS PBFSProofs ParBfs ParBfsSpec Base BaseProofs.
#[local] Arguments dkeys : simpl never.

Section P.
  Context {A : Type} {EA : EqDec A}.
  Variables g1 g2 : aut A.
  Variable ord : set_order A.
  Hypothesis VO : valid_order ord.
  Variable ip : medge -> medge -> A -> bool.

  Notation step := (step g1 g2).
  Lemma word1 (g : aut A) q a : A_delta_word g q [a] = odelta g q a.
  Proof. destruct q; reflexivity. Qed.
  Lemma step_succ p a : step p a = succ g1 g2 p a.
  Proof. unfold ParBfsSpec.step, succ. rewrite !word1. reflexivity. Qed.
  Lemma edge_of_get (g : aut A) q a : edge_of g q a = get_edge g q a.
  Proof. destruct q; reflexivity. Qed.
  Definition ev (h : edge_hook) (p : qpair) (a : A) : pevent A := Edges h (get_edge g1 (fst p) a) First (get_edge g2 (snd p) a) Second a.
  Lemma edges_ev h p a : edges g1 g2 h p a = ev h p a.
  Proof. unfold edges, ev. rewrite !edge_of_get. reflexivity. Qed.
  Lemma target_get p a : target_pair (get_edge g1 (fst p) a) (get_edge g2 (snd p) a) = step p a.
  Proof. rewrite step_succ. unfold target_pair, succ. destruct p as [[q1|] [q2|]]; reflexivity. Qed.
  Definition push (p : qpair) (a : A) : bool := ip (get_edge g1 (fst p) a) (get_edge g2 (snd p) a) a.

  (** the trace *)
  Definition sy (p : qpair) (a : A) : pevent A := Symbol (fst p) First (snd p) Second a.
  Definition ve (h : vertex_hook) (p : qpair) : pevent A := Vertex h (fst p) First (snd p) Second.
  Definition fi (p : qpair) : pevent A := Vertex HFinish (fst p) Second (snd p) Second.
  Fixpoint tsyms (p : qpair) (syms : list A) (stack : list qpair) (col : dict qpair color) : list (pevent A) * list qpair * dict qpair color :=
    match syms with
    | [] => ([], stack, col)
    | a :: syms' =>
        match color_of col (step p a) with
        | WHITE =>
            let '(t, st, c) := tsyms p syms' (if push p a then stack ++ [step p a] else stack) (dset col (step p a) GRAY) in
            (sy p a :: ev HEdge p a :: ev HTree p a :: ve HDiscover (step p a) :: t, st, c)
        | GRAY => let '(t, st, c) := tsyms p syms' stack col in (sy p a :: ev HEdge p a :: ev HGray p a :: t, st, c)
        | BLACK => let '(t, st, c) := tsyms p syms' stack col in (sy p a :: ev HEdge p a :: ev HBlack p a :: t, st, c)
        end
    end.
  Definition syms (n : nat) (p : qpair) : list A := ord n (sunion (A_sigma g1 (fst p)) (A_sigma g2 (snd p))).
  Fixpoint tl (fuel n : nat) (stack : list qpair) (col : dict qpair color) : option (list (pevent A) * dict qpair color) :=
    match stack with
    | [] => Some ([], col)
    | p :: stack =>
        match fuel with
        | 0 => None
        | S fuel =>
            let '(t, st, c) := tsyms p (syms n p) stack col in
            match tl fuel (S n) st (dset c p BLACK) with
            | None => None
            | Some (t', c') => Some (ve HExamine p :: t ++ fi p :: t', c')
            end
        end
    end.

  Section Sim.
    Context {St : Type}.
    Variable vis : pevent A -> St -> res St.
    Lemma pcalls_app l1 : forall l2 st, pcalls vis (l1 ++ l2) st = rbind (pcalls vis l1 st) (pcalls vis l2).
    Proof. induction l1 as [|x l1 IH]; intros l2 st; [reflexivity|]. cbn. destruct (vis x st); [apply IH|reflexivity]. Qed.

    Lemma sim_syms p l : forall stack col st, par_symbols g1 g2 ip vis (fst p) (snd p) l stack col st =
      let '(t, stk, c) := tsyms p l stack col in rbind (pcalls vis t st) (fun st' => Ok (stk, c, st')).
    Proof.
      induction l as [|a l IH]; intros stack col st; [reflexivity|]. cbn [par_symbols tsyms].
      change (odelta g1 (fst p) a, odelta g2 (snd p) a) with (succ g1 g2 p a). rewrite <- step_succ.
      destruct (color_of col (step p a)).
      - fold (push p a). destruct (tsyms p l (if push p a then stack ++ [step p a] else stack) (dset col (step p a) GRAY)) as [[t stk] c] eqn:E.
        cbn [pcalls]. unfold sy, ev, ve. rewrite step_succ in *. unfold succ in *. cbn [fst snd] in *.
        destruct (vis (Symbol _ _ _ _ _) st) as [st1|]; [cbn [rbind]|reflexivity].
        destruct (vis (Edges HEdge _ _ _ _ _) st1) as [st2|]; [cbn [rbind]|reflexivity].
        destruct (vis (Edges HTree _ _ _ _ _) st2) as [st3|]; [cbn [rbind]|reflexivity].
        destruct (vis (Vertex HDiscover _ _ _ _) st3) as [st4|]; [cbn [rbind]|reflexivity].
        specialize (IH (if push p a then stack ++ [(odelta g1 (fst p) a, odelta g2 (snd p) a)] else stack) (dset col (odelta g1 (fst p) a, odelta g2 (snd p) a) GRAY) st4).
        rewrite E in IH. exact IH.
      - destruct (tsyms p l stack col) as [[t stk] c] eqn:E. cbn [pcalls]. unfold sy, ev.
        destruct (vis (Symbol _ _ _ _ _) st) as [st1|]; [cbn [rbind]|reflexivity].
        destruct (vis (Edges HEdge _ _ _ _ _) st1) as [st2|]; [cbn [rbind]|reflexivity].
        destruct (vis (Edges HGray _ _ _ _ _) st2) as [st3|]; [cbn [rbind]|reflexivity].
        specialize (IH stack col st3). rewrite E in IH. exact IH.
      - destruct (tsyms p l stack col) as [[t stk] c] eqn:E. cbn [pcalls]. unfold sy, ev.
        destruct (vis (Symbol _ _ _ _ _) st) as [st1|]; [cbn [rbind]|reflexivity].
        destruct (vis (Edges HEdge _ _ _ _ _) st1) as [st2|]; [cbn [rbind]|reflexivity].
        destruct (vis (Edges HBlack _ _ _ _ _) st2) as [st3|]; [cbn [rbind]|reflexivity].
        specialize (IH stack col st3). rewrite E in IH. exact IH.
    Qed.

    Lemma sim_loop fuel : forall n stack col t c, tl fuel n stack col = Some (t, c) -> forall st,
      par_loop g1 g2 ord ip vis fuel n stack col st = Some (rbind (pcalls vis t st) (fun st' => Ok (c, st'))).
    Proof.
      induction fuel as [|fuel IH]; intros n stack col t c E st; destruct stack as [|[q1 q2] stack]; cbn [tl par_loop] in *; try discriminate.
      - injection E as <- <-. reflexivity.
      - injection E as <- <-. reflexivity.
      - destruct (tsyms (q1, q2) (syms n (q1, q2)) stack col) as [[t1 stk] c1] eqn:E1.
        destruct (tl fuel (S n) stk (dset c1 (q1, q2) BLACK)) as [[t2 c2]|] eqn:E2; [|discriminate]. injection E as <- <-.
        cbn [pcalls]. unfold ve. cbn [fst snd]. destruct (vis (Vertex HExamine q1 First q2 Second) st) as [st1|x]; [cbn [rbind]|reflexivity].
        pose proof (sim_syms (q1, q2) (syms n (q1, q2)) stack col st1) as S. rewrite E1 in S. unfold syms in S. cbn [fst snd] in S. rewrite S.
        rewrite pcalls_app. destruct (pcalls vis t1 st1) as [st2|x]; [cbn [rbind]|reflexivity]. cbn [pcalls]. unfold fi. cbn [fst snd].
        destruct (vis (Vertex HFinish q1 Second q2 Second) st2) as [st3|x]; [cbn [rbind]|reflexivity]. apply IH, E2.
    Qed.

    Lemma sim_sources l : forall stack st, par_sources vis l stack st = rbind (pcalls vis (map (ve HStart) l) st) (fun st' => Ok (stack ++ l, st')).
    Proof.
      induction l as [|[s1 s2] l IH]; intros stack st; cbn [par_sources map pcalls]; [rewrite app_nil_r; reflexivity|]. unfold ve at 1. cbn [fst snd].
      destruct (vis (Vertex HStart s1 First s2 Second) st) as [st1|x]; [cbn [rbind]|reflexivity]. rewrite IH, <- app_assoc. reflexivity.
    Qed.
  End Sim.

  (** ** The structure of the trace *)
  Lemma vertices_app p t1 t2 : vertices_of (A:=A) p (t1 ++ t2) = vertices_of p t1 ++ vertices_of p t2.
  Proof. apply flat_map_app. Qed.
  Lemma disc_app t1 t2 : discovered (A:=A) (t1 ++ t2) = discovered t1 ++ discovered t2. Proof. apply flat_map_app. Qed.
  Lemma fin_app t1 t2 : finished (A:=A) (t1 ++ t2) = finished t1 ++ finished t2. Proof. apply flat_map_app. Qed.
  Lemma exam_app t1 t2 : ParBfsSpec.examined (A:=A) (t1 ++ t2) = ParBfsSpec.examined t1 ++ ParBfsSpec.examined t2. Proof. apply flat_map_app. Qed.
  Lemma push_app t1 t2 : pushed (A:=A) ip (t1 ++ t2) = pushed ip t1 ++ pushed ip t2. Proof. apply flat_map_app. Qed.

  Notation hue := (color_after (A:=A)).
  Notation legal := (legal (A:=A) ip).

  (** all the calls of [t'] are legal after [t] *)
  Definition legals (t t' : list (pevent A)) : Prop := forall t1 x t2, t' = t1 ++ x :: t2 -> legal (t ++ t1) x.
  Lemma legals_nil t : legals t [].
  Proof. intros t1 x t2 E. destruct t1; discriminate. Qed.
  Lemma legals_cons t x t' : legal t x -> legals (t ++ [x]) t' -> legals t (x :: t').
  Proof.
    intros L LS t1 y t2 E. destruct t1 as [|z t1]; cbn in E; injection E as -> E; [rewrite app_nil_r; exact L|].
    specialize (LS t1 y t2 E). rewrite <- app_assoc in LS. exact LS.
  Qed.
  Lemma legals_app t t1 t2 : legals t t1 -> legals (t ++ t1) t2 -> legals t (t1 ++ t2).
  Proof.
    revert t. induction t1 as [|x t1 IH]; intros t L1 L2; [rewrite app_nil_r in L2; exact L2|]. cbn [app]. apply legals_cons.
    - specialize (L1 [] x t1 eq_refl). rewrite app_nil_r in L1. exact L1.
    - apply IH.
      + intros u y v E. specialize (L1 (x :: u) y v). rewrite <- app_assoc. apply L1. cbn. congruence.
      + rewrite <- app_assoc. exact L2.
  Qed.

  Lemma hue_ext t t' : finished t = finished t' -> discovered t = discovered t' -> forall x, hue t x = hue t' x.
  Proof. intros E1 E2 x. unfold color_after. rewrite E1, E2. reflexivity. Qed.

  Lemma tsyms_spec p l : forall stack col t0 t stk c, (forall x, color_of col x = hue t0 x) -> tsyms p l stack col = (t, stk, c) ->
    on_symbols g1 g2 p l t /\ legals t0 t /\ (forall x, color_of c x = hue (t0 ++ t) x) /\ stk = stack ++ pushed ip t /\
    finished t = [] /\ ParBfsSpec.examined t = [] /\ started t = [] /\
    (forall x, In x (discovered t) -> hue t0 x = WHITE /\ exists a, In a l /\ x = step p a) /\ NoDup (discovered t) /\
    (forall a, In a l -> hue (t0 ++ t) (step p a) <> WHITE).
  Proof.
    induction l as [|a l IH]; intros stack col t0 t stk c HC E; cbn [tsyms] in E.
    - injection E as <- <- <-. rewrite !app_nil_r. split; [constructor|]. split; [apply legals_nil|]. split; [exact HC|]. split; [cbn; rewrite ?app_nil_r; reflexivity|]. do 3 (split; [reflexivity|]). split; [intros ? []|]. split; [constructor|intros ? []].
    - assert (LT : forall k, legal t0 (Edges k (get_edge g1 (fst p) a) First (get_edge g2 (snd p) a) Second a) <->
        match k with HEdge => True | HTree => hue t0 (step p a) = WHITE | HGray => hue t0 (step p a) = GRAY | HBlack => hue t0 (step p a) = BLACK end).
      { intros k. unfold ParBfsSpec.legal, color_after. rewrite target_get. destruct k; try tauto; destruct (mem_reflect (step p a) (finished t0)), (mem_reflect (step p a) (discovered t0)); split; intros X; try tauto; try discriminate; try reflexivity. }
      assert (N1 : forall t : list (pevent A), discovered (t ++ [sy p a]) = discovered t /\ finished (t ++ [sy p a]) = finished t) by (intros u; rewrite disc_app, fin_app; cbn; rewrite !app_nil_r; auto).
      assert (N2 : forall k (t : list (pevent A)), discovered (t ++ [ev k p a]) = discovered t /\ finished (t ++ [ev k p a]) = finished t) by (intros k u; rewrite disc_app, fin_app; cbn; rewrite !app_nil_r; auto).
      assert (LG : forall u k e1 x1 e2 x2 b, discovered u = discovered t0 -> finished u = finished t0 -> legal t0 (Edges k e1 x1 e2 x2 b) -> legal u (Edges k e1 x1 e2 x2 b)).
      { intros u k e1 x1 e2 x2 b D F. destruct k; unfold ParBfsSpec.legal; rewrite ?D, ?F; auto. }
      set (t2 := (t0 ++ [sy p a]) ++ [ev HEdge p a]).
      assert (D2 : discovered t2 = discovered t0) by (unfold t2; rewrite (proj1 (N2 _ _)), (proj1 (N1 _)); reflexivity).
      assert (F2 : finished t2 = finished t0) by (unfold t2; rewrite (proj2 (N2 _ _)), (proj2 (N1 _)); reflexivity).
      rewrite HC in E. destruct (hue t0 (step p a)) eqn:HU.
      + destruct (tsyms p l (if push p a then stack ++ [step p a] else stack) (dset col (step p a) GRAY)) as [[t' stk'] c'] eqn:E'. injection E as <- <- <-.
        set (t4 := (t2 ++ [ev HTree p a]) ++ [ve HDiscover (step p a)]).
        assert (D4 : discovered t4 = discovered t0 ++ [step p a]).
        { unfold t4. rewrite disc_app, (proj1 (N2 _ _)), D2. reflexivity. }
        assert (F4 : finished t4 = finished t0) by (unfold t4; rewrite fin_app, (proj2 (N2 _ _)), F2; cbn; rewrite app_nil_r; reflexivity).
        assert (HC4 : forall x, color_of (dset col (step p a) GRAY) x = hue t4 x).
        { intros x. rewrite color_of_dset, HC. unfold color_after. rewrite D4, F4. unfold color_after in HU.
          destruct (eqb_spec x (step p a)) as [->|N].
          - destruct (mem (step p a) (finished t0)); [discriminate|]. assert (X : mem (step p a) (discovered t0 ++ [step p a]) = true) by (apply mem_spec, in_app_iff; right; left; reflexivity). rewrite X. reflexivity.
          - destruct (mem x (finished t0)); [reflexivity|]. destruct (mem_reflect x (discovered t0)) as [M|M], (mem_reflect x (discovered t0 ++ [step p a])) as [M'|M']; try reflexivity.
            + exfalso. apply M'. apply in_app_iff. auto.
            + exfalso. apply in_app_iff in M'. destruct M' as [M'|[M'|[]]]; [auto|congruence]. }
        assert (TT : forall u, t4 ++ u = t0 ++ sy p a :: ev HEdge p a :: ev HTree p a :: ve HDiscover (step p a) :: u) by (intros u; unfold t4, t2; rewrite <- !app_assoc; reflexivity).
        destruct (IH _ _ _ _ _ _ HC4 E') as (H1 & H2 & H3 & H4 & H5 & H6 & H7 & H8 & H9 & H10).
        split; [|split; [|split; [|split; [|split; [|split; [|split; [|split; [|split]]]]]]]].
        * rewrite <- !edges_ev. apply on_tree. exact H1.
        * apply legals_cons; [exact I|]. apply legals_cons; [exact I|]. apply legals_cons.
          -- apply (LG t2); [exact D2|exact F2|]. apply LT. reflexivity.
          -- apply legals_cons; [exact I|]. exact H2.
        * intros x. rewrite H3, TT. reflexivity.
        * rewrite H4. cbn [pushed flat_map ev]. rewrite target_get. fold (push p a). destruct (push p a); [rewrite <- app_assoc|]; reflexivity.
        * exact H5.
        * exact H6.
        * exact H7.
        * intros x [<-|I]; [rewrite <- surjective_pairing; split; [exact HU|exists a; split; [left|]; reflexivity]|].
          destruct (H8 x I) as [X (b & Ib & Eb)]. split; [|exists b; split; [right; exact Ib|exact Eb]].
          unfold color_after in X |- *. rewrite D4, F4 in X. destruct (mem x (finished t0)); [discriminate|].
          destruct (mem_reflect x (discovered t0)) as [M|M]; [|reflexivity].
          assert (Y : mem x (discovered t0 ++ [step p a]) = true) by (apply mem_spec, in_app_iff; auto). rewrite Y in X. discriminate.
        * change (NoDup ((fst (step p a), snd (step p a)) :: discovered t')). constructor; [|exact H9]. rewrite <- surjective_pairing. intros I. destruct (H8 _ I) as [X _].
          unfold color_after in X. rewrite D4 in X. assert (Y : mem (step p a) (discovered t0 ++ [step p a]) = true) by (apply mem_spec, in_app_iff; right; left; reflexivity). rewrite Y in X.
          destruct (mem (step p a) (finished t4)); discriminate.
        * intros b [<-|I]; [|rewrite <- TT; apply H10, I]. rewrite <- TT. unfold color_after. rewrite disc_app, D4.
          assert (Y : mem (step p a) ((discovered t0 ++ [step p a]) ++ discovered t') = true) by (apply mem_spec; rewrite !in_app_iff; cbn; auto). rewrite Y.
          destruct (mem (step p a) (finished (t4 ++ t'))); discriminate.
      + destruct (tsyms p l stack col) as [[t' stk'] c'] eqn:E'. injection E as <- <- <-.
        set (t3 := t2 ++ [ev HGray p a]).
        assert (D3 : discovered t3 = discovered t0) by (unfold t3; rewrite (proj1 (N2 _ _)); exact D2).
        assert (F3 : finished t3 = finished t0) by (unfold t3; rewrite (proj2 (N2 _ _)); exact F2).
        assert (HC3 : forall x, color_of col x = hue t3 x) by (intros x; rewrite HC; apply hue_ext; auto).
        assert (TT : forall u, t3 ++ u = t0 ++ sy p a :: ev HEdge p a :: ev HGray p a :: u) by (intros u; unfold t3, t2; rewrite <- !app_assoc; reflexivity).
        destruct (IH _ _ _ _ _ _ HC3 E') as (H1 & H2 & H3 & H4 & H5 & H6 & H7 & H8 & H9 & H10).
        split; [|split; [|split; [|split; [|split; [|split; [|split; [|split; [|split]]]]]]]].
        * rewrite <- !edges_ev. apply on_gray. exact H1.
        * apply legals_cons; [exact I|]. apply legals_cons; [exact I|]. apply legals_cons; [|exact H2]. apply (LG t2); [exact D2|exact F2|]. apply LT. reflexivity.
        * intros x. rewrite H3, TT. reflexivity.
        * exact H4.
        * exact H5.
        * exact H6.
        * exact H7.
        * intros x I. destruct (H8 x I) as [X (b & Ib & Eb)]. rewrite (hue_ext t3 t0 F3 D3) in X. split; [exact X|]. exists b. split; [right; exact Ib|exact Eb].
        * exact H9.
        * intros b [<-|I]; [|rewrite <- TT; apply H10, I]. rewrite <- TT. unfold color_after in HU |- *. rewrite disc_app, fin_app, D3, F3, H5, app_nil_r.
          destruct (mem (step p a) (finished t0)); [discriminate|]. destruct (mem_reflect (step p a) (discovered t0)) as [M|M]; [|discriminate].
          assert (Y : mem (step p a) (discovered t0 ++ discovered t') = true) by (apply mem_spec, in_app_iff; auto). rewrite Y. discriminate.
      + destruct (tsyms p l stack col) as [[t' stk'] c'] eqn:E'. injection E as <- <- <-.
        set (t3 := t2 ++ [ev HBlack p a]).
        assert (D3 : discovered t3 = discovered t0) by (unfold t3; rewrite (proj1 (N2 _ _)); exact D2).
        assert (F3 : finished t3 = finished t0) by (unfold t3; rewrite (proj2 (N2 _ _)); exact F2).
        assert (HC3 : forall x, color_of col x = hue t3 x) by (intros x; rewrite HC; apply hue_ext; auto).
        assert (TT : forall u, t3 ++ u = t0 ++ sy p a :: ev HEdge p a :: ev HBlack p a :: u) by (intros u; unfold t3, t2; rewrite <- !app_assoc; reflexivity).
        destruct (IH _ _ _ _ _ _ HC3 E') as (H1 & H2 & H3 & H4 & H5 & H6 & H7 & H8 & H9 & H10).
        split; [|split; [|split; [|split; [|split; [|split; [|split; [|split; [|split]]]]]]]].
        * rewrite <- !edges_ev. apply on_black. exact H1.
        * apply legals_cons; [exact I|]. apply legals_cons; [exact I|]. apply legals_cons; [|exact H2]. apply (LG t2); [exact D2|exact F2|]. apply LT. reflexivity.
        * intros x. rewrite H3, TT. reflexivity.
        * exact H4.
        * exact H5.
        * exact H6.
        * exact H7.
        * intros x I. destruct (H8 x I) as [X (b & Ib & Eb)]. rewrite (hue_ext t3 t0 F3 D3) in X. split; [exact X|]. exists b. split; [right; exact Ib|exact Eb].
        * exact H9.
        * intros b [<-|I]; [|rewrite <- TT; apply H10, I]. rewrite <- TT. unfold color_after in HU |- *. rewrite fin_app, F3, H5, app_nil_r.
          destruct (mem (step p a) (finished t0)); [discriminate|]. destruct (mem (step p a) (discovered t0)); discriminate.
  Qed.

  Lemma hue_mono t t' x : hue t x <> WHITE -> hue (t ++ t') x <> WHITE.
  Proof.
    unfold color_after. rewrite fin_app, disc_app. intros N.
    destruct (mem_reflect x (finished t ++ finished t')) as [F|F]; [discriminate|]. destruct (mem_reflect x (discovered t ++ discovered t')) as [D|D]; [discriminate|].
    rewrite in_app_iff in F, D. destruct (mem_reflect x (finished t)) as [F'|F']; [tauto|]. destruct (mem_reflect x (discovered t)) as [D'|D']; [tauto|]. congruence.
  Qed.
  Lemma In_syms n p a : In a (syms n p) <-> enabled g1 g2 p a.
  Proof using VO.
    unfold syms. transitivity (In a (sunion (A_sigma g1 (fst p)) (A_sigma g2 (snd p)))); [split; apply Permutation_in; [|symmetry]; apply VO|]. rewrite In_sunion, !In_sigma. unfold enabled. rewrite step_succ. unfold succ.
    destruct (odelta g1 (fst p) a), (odelta g2 (snd p) a); split; intros X; try (left; congruence); try (right; congruence); try congruence; destruct X; congruence.
  Qed.
  Lemma NoDup_syms n p : NoDup (syms n p).
  Proof using VO. eapply Permutation_NoDup; [symmetry; apply VO|]. apply NoDup_sunion. unfold A_sigma. destruct (fst p) as [q1|]; [|constructor]. destruct (dget (au_adj g1) q1); [apply NoDup_sof|constructor]. Qed.

  Lemma tl_spec fuel : forall n stack col t0 t c, (forall x, color_of col x = hue t0 x) -> started t0 ++ pushed ip t0 = ParBfsSpec.examined t0 ++ stack ->
    tl fuel n stack col = Some (t, c) ->
    on_pairs g1 g2 (ParBfsSpec.examined t) t /\ legals t0 t /\ (forall x, color_of c x = hue (t0 ++ t) x) /\ started t = [] /\
    ParBfsSpec.examined t = stack ++ pushed ip t /\
    NoDup (discovered t) /\ (forall x, In x (discovered t) -> hue t0 x = WHITE).
  Proof using VO.
    induction fuel as [|fuel IH]; intros n stack col t0 t c HC HQ E; destruct stack as [|p stack]; cbn [tl] in E; try discriminate.
    - injection E as <- <-. rewrite app_nil_r. split; [constructor|]. split; [apply legals_nil|]. repeat split; try assumption; [constructor|intros ? []].
    - injection E as <- <-. rewrite app_nil_r. split; [constructor|]. split; [apply legals_nil|]. repeat split; try assumption; [constructor|intros ? []].
    - destruct (tsyms p (syms n p) stack col) as [[t1 stk] c1] eqn:E1.
      destruct (tl fuel (S n) stk (dset c1 p BLACK)) as [[t2 c2]|] eqn:E2; [|discriminate]. injection E as <- <-.
      set (u1 := t0 ++ [ve HExamine p]). assert (HC1 : forall x, color_of col x = hue u1 x).
      { intros x. rewrite HC. apply hue_ext; unfold u1; rewrite ?fin_app, ?disc_app; cbn; rewrite app_nil_r; reflexivity. }
      destruct (tsyms_spec _ _ _ _ _ _ _ _ HC1 E1) as (H1 & H2 & H3 & H4 & H5 & H6 & H7 & H8 & H9 & H10).
      set (u2 := (u1 ++ t1) ++ [fi p]).
      assert (F2 : finished u2 = finished (u1 ++ t1) ++ [p]) by (unfold u2; rewrite fin_app; cbn; rewrite <- surjective_pairing; reflexivity).
      assert (D2 : discovered u2 = discovered (u1 ++ t1)) by (unfold u2; rewrite disc_app; cbn; rewrite app_nil_r; reflexivity).
      assert (X2 : ParBfsSpec.examined u2 = ParBfsSpec.examined t0 ++ [p]).
      { unfold u2, u1. rewrite !exam_app, H6. cbn. rewrite <- surjective_pairing, !app_nil_r. reflexivity. }
      assert (P2 : pushed ip u2 = pushed ip t0 ++ pushed ip t1).
      { unfold u2, u1. rewrite !push_app. cbn. rewrite !app_nil_r. reflexivity. }
      assert (S2 : started u2 = started t0).
      { unfold u2, u1, started. rewrite !vertices_app. fold (started t0) (started t1). rewrite H7. cbn. rewrite !app_nil_r. reflexivity. }
      assert (HC2 : forall x, color_of (dset c1 p BLACK) x = hue u2 x).
      { intros x. rewrite color_of_dset, H3. unfold color_after. rewrite F2, D2.
        destruct (eqb_spec x p) as [->|N].
        - assert (Y : mem p (finished (u1 ++ t1) ++ [p]) = true) by (apply mem_spec, in_app_iff; right; left; reflexivity). rewrite Y. reflexivity.
        - destruct (mem_reflect x (finished (u1 ++ t1))) as [M|M], (mem_reflect x (finished (u1 ++ t1) ++ [p])) as [M'|M']; try reflexivity.
          + exfalso. apply M'. apply in_app_iff. auto.
          + exfalso. apply in_app_iff in M'. destruct M' as [M'|[M'|[]]]; [auto|congruence]. }
      assert (HQ2 : started u2 ++ pushed ip u2 = ParBfsSpec.examined u2 ++ stk).
      { rewrite S2, P2, X2, H4, app_assoc, HQ, <- !app_assoc. reflexivity. }
      destruct (IH _ _ _ _ _ _ HC2 HQ2 E2) as (I1 & I2 & I3 & I4 & I5 & I6 & I7).
      assert (TT : u2 ++ t2 = t0 ++ ve HExamine p :: t1 ++ fi p :: t2) by (unfold u2, u1; rewrite <- !app_assoc; reflexivity).
      assert (XT : ParBfsSpec.examined (ve HExamine p :: t1 ++ fi p :: t2) = p :: ParBfsSpec.examined t2).
      { change (ve HExamine p :: t1 ++ fi p :: t2) with ([ve HExamine p] ++ t1 ++ [fi p] ++ t2). rewrite !exam_app, H6. cbn. rewrite <- surjective_pairing. reflexivity. }
      assert (DT : discovered (ve HExamine p :: t1 ++ fi p :: t2) = discovered t1 ++ discovered t2).
      { change (ve HExamine p :: t1 ++ fi p :: t2) with ([ve HExamine p] ++ t1 ++ [fi p] ++ t2). rewrite !disc_app. cbn. reflexivity. }
      split; [|split; [|split; [|split; [|split; [|split]]]]].
      + rewrite XT. apply on_pair with (syms := syms n p); [apply NoDup_syms|intros a; apply In_syms|exact H1|exact I1].
      + apply legals_cons.
        * cbn. rewrite <- surjective_pairing. exists stack. exact HQ.
        * apply legals_app; [exact H2|]. apply legals_cons; [exact I|]. exact I2.
      + intros x. rewrite I3, TT. reflexivity.
      + change (ve HExamine p :: t1 ++ fi p :: t2) with ([ve HExamine p] ++ t1 ++ [fi p] ++ t2). unfold started. rewrite !vertices_app. fold (started t1) (started t2). rewrite H7, I4. reflexivity.
      + rewrite XT, I5, H4. change (ve HExamine p :: t1 ++ fi p :: t2) with ([ve HExamine p] ++ t1 ++ [fi p] ++ t2). rewrite !push_app. cbn. rewrite <- app_assoc. reflexivity.
      + rewrite DT. apply NoDup_app_intro; [exact H9|exact I6|]. intros x J1 J2. apply I7 in J2.
        unfold color_after in J2. rewrite D2, disc_app in J2. assert (Y : mem x (discovered u1 ++ discovered t1) = true) by (apply mem_spec, in_app_iff; auto). rewrite Y in J2. destruct (mem x (finished u2)); discriminate.
      + intros x. rewrite DT. intros J. apply in_app_iff in J. destruct J as [J|J].
        * destruct (H8 x J) as [X _]. rewrite <- X. rewrite <- HC, <- HC1. reflexivity.
        * destruct (hue t0 x) eqn:Y; [reflexivity|exfalso|exfalso]; apply I7 in J; revert J; unfold u2, u1; rewrite <- !app_assoc; apply hue_mono; congruence.
  Qed.

  (** ** Termination *)
  Definition U : list qpair := list_prod (otargets g1) (otargets g2).
  Lemma NoDup_U : NoDup U.
  Proof.
    unfold U. pose proof (NoDup_otargets g1) as N1. pose proof (NoDup_otargets g2) as N2. revert N1 N2. generalize (otargets g1) (otargets g2). intros l1 l2 N1 N2.
    induction N1 as [|x l1 NI N1 IH]; [constructor|]. cbn [list_prod]. apply NoDup_app_intro; [|exact IH|].
    - apply FinFun.Injective_map_NoDup; [|exact N2]. intros a b E. congruence.
    - intros y I1 I2. apply in_map_iff in I1. destruct I1 as (b & <- & _). apply in_prod_iff in I2. tauto.
  Qed.
  Lemma step_U p a : In (step p a) U.
  Proof. rewrite step_succ. unfold U, succ. apply in_prod; apply In_otargets. Qed.
  Definition wh (t : list (pevent A)) : nat := length (filter (fun x => is_white (hue t x)) U).

  Lemma tl_fuel fuel : forall n stack col t0, (forall x, color_of col x = hue t0 x) -> length stack + wh t0 <= fuel -> exists r, tl fuel n stack col = Some r.
  Proof.
    induction fuel as [|fuel IH]; intros n stack col t0 HC L; destruct stack as [|p stack]; cbn [tl]; eauto; [cbn in L; lia|].
    destruct (tsyms p (syms n p) stack col) as [[t1 stk] c1] eqn:E1.
    set (u1 := t0 ++ [ve HExamine p]). assert (HC1 : forall x, color_of col x = hue u1 x).
    { intros x. rewrite HC. apply hue_ext; unfold u1; rewrite ?fin_app, ?disc_app; cbn; rewrite app_nil_r; reflexivity. }
    destruct (tsyms_spec _ _ _ _ _ _ _ _ HC1 E1) as (H1 & H2 & H3 & H4 & H5 & H6 & H7 & H8 & H9 & H10).
    set (u2 := (u1 ++ t1) ++ [fi p]).
    assert (F2 : finished u2 = finished (u1 ++ t1) ++ [p]) by (unfold u2; rewrite fin_app; cbn; rewrite <- surjective_pairing; reflexivity).
    assert (D2 : discovered u2 = discovered (u1 ++ t1)) by (unfold u2; rewrite disc_app; cbn; rewrite app_nil_r; reflexivity).
    assert (HC2 : forall x, color_of (dset c1 p BLACK) x = hue u2 x).
    { intros x. rewrite color_of_dset, H3. unfold color_after. rewrite F2, D2.
      destruct (eqb_spec x p) as [->|N].
      - assert (Y : mem p (finished (u1 ++ t1) ++ [p]) = true) by (apply mem_spec, in_app_iff; right; left; reflexivity). rewrite Y. reflexivity.
      - destruct (mem_reflect x (finished (u1 ++ t1))) as [M|M], (mem_reflect x (finished (u1 ++ t1) ++ [p])) as [M'|M']; try reflexivity.
        + exfalso. apply M'. apply in_app_iff. auto.
        + exfalso. apply in_app_iff in M'. destruct M' as [M'|[M'|[]]]; [auto|congruence]. }
    assert (LP : length (pushed ip t1) <= length (discovered t1)).
    { clear - H1. induction H1 as [|a l t H1 IH|a l t H1 IH|a l t H1 IH]; try exact IH; [apply le_n|].
      change (length ((if ip (edge_of g1 (fst p) a) (edge_of g2 (snd p) a) a then [target_pair (edge_of g1 (fst p) a) (edge_of g2 (snd p) a)] else []) ++ pushed ip t) <= S (length (discovered t))).
      destruct (ip _ _ _); cbn [app length]; lia. }
    assert (LW : wh u2 + length (discovered t1) <= wh t0).
    { apply filter_split_count; [exact H9|apply NoDup_U| |].
      - intros x I. destruct (H8 x I) as [W (a & Ia & ->)]. split; [apply step_U|]. apply is_white_spec. rewrite <- HC, HC1. exact W.
      - intros x _ W. apply is_white_spec in W. split.
        + apply is_white_spec. destruct (hue t0 x) eqn:Y; [reflexivity|exfalso|exfalso]; revert W; unfold u2, u1; rewrite <- !app_assoc; apply hue_mono; congruence.
        + intros I. unfold color_after in W. rewrite D2, disc_app in W. assert (Y : mem x (discovered u1 ++ discovered t1) = true) by (apply mem_spec, in_app_iff; auto). rewrite Y in W. destruct (mem x (finished u2)); discriminate. }
    destruct (IH (S n) stk (dset c1 p BLACK) u2 HC2) as [[t2 c2] ->]; [|eauto]. rewrite H4, app_length. cbn [length] in L. lia.
  Qed.

  Lemma tl_mono fuel : forall fuel' n stack col r, fuel <= fuel' -> tl fuel n stack col = Some r -> tl fuel' n stack col = Some r.
  Proof.
    induction fuel as [|fuel IH]; intros fuel' n stack col r L E; destruct stack as [|p stack]; cbn [tl] in E; try discriminate; destruct fuel' as [|fuel']; try lia; cbn [tl]; try exact E.
    destruct (tsyms p (syms n p) stack col) as [[t stk] c]. destruct (tl fuel (S n) stk (dset c p BLACK)) as [[t' c']|] eqn:E'; [|discriminate].
    rewrite (IH fuel' _ _ _ _ ltac:(lia) E'). exact E.
  Qed.
End P.
