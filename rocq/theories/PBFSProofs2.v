(** Inclusion, matching, intersection and union through the parallel BFS. *)
From Verif Require Import Base BaseProofs Graph GraphProofs Automaton AutomatonSpec AutomatonProofs
  Trie TrieSpec TrieProofs PBFS PBFSProofs.
#[local] Arguments dkeys : simpl never.

Section P.
  Context {A : Type} {EA : EqDec A}.

  Lemma delta_word_app (g : aut A) u v : forall q, A_delta_word g q (u ++ v) = A_delta_word g (A_delta_word g q u) v.
  Proof.
    induction u as [|a u IH]; intros [q|]; cbn; [reflexivity|reflexivity|apply IH|]. destruct v; reflexivity.
  Qed.
  Lemma delta_word_snoc (g : aut A) u a : forall q, A_delta_word g q (u ++ [a]) = odelta g (A_delta_word g q u) a.
  Proof.
    induction u as [|b u IH]; intros q; cbn.
    - destruct q; reflexivity.
    - destruct q; [apply IH|]. reflexivity.
  Qed.
  Lemma delta_word_None (g : aut A) u : A_delta_word g None u = None.
  Proof. destruct u; reflexivity. Qed.

  Lemma accepts_final (g : aut A) w : A_accepts g w = A_is_final_opt g (A_delta_word g (A_initial g) w).
  Proof. unfold A_accepts. destruct (A_delta_word g (A_initial g) w); reflexivity. Qed.

  Section Two.
    Variable g1 g2 : aut A.
    Definition p0 : qpair := (A_initial g1, A_initial g2).
    (** the pair reached by a word *)
    Definition pw (w : list A) : qpair := (A_delta_word g1 (A_initial g1) w, A_delta_word g2 (A_initial g2) w).

    Lemma pw_snoc w a : pw (w ++ [a]) = succ g1 g2 (pw w) a.
    Proof. unfold pw, succ. cbn. rewrite !delta_word_snoc. reflexivity. Qed.
    Lemma live_snoc w a : live (pw (w ++ [a])) -> live (pw w).
    Proof.
      rewrite pw_snoc. unfold live. intros L E. apply L. rewrite E. reflexivity.
    Qed.

    Lemma expl_pw pp p : expl g1 g2 pp p0 p -> exists w, p = pw w.
    Proof.
      intros E. induction E as [|p a E (w & ->) L P]; [exists []; reflexivity|].
      exists (w ++ [a]). symmetry. apply pw_snoc.
    Qed.
    Lemma pw_expl w : live (pw w) -> expl g1 g2 (fun _ => true) p0 (pw w).
    Proof.
      induction w as [|a w IH] using rev_ind; intros L; [apply expl_0|].
      pose proof (live_snoc _ _ L) as L'. rewrite pw_snoc in *. apply expl_S; auto.
    Qed.

    (** events of a run with the default [if_push] *)
    Lemma always_events ord : valid_order ord -> forall fuel, pbfs_fuel g1 g2 <= fuel -> exists ev,
      (forall St hs he hd (s : St), pbfs (fun _ => g1) g2 ord hs he hd always_push fuel s =
         Some (match hs s (A_initial g1) (A_initial g2) with
               | (s', Ok _) => foreach (handle g1 g2 he hd) s' ev | r => r end)) /\
      NoDup (discs ev) /\
      (forall p a, In (EvEdge p a) ev <-> exists w, p = pw w /\ live (pw (w ++ [a]))) /\
      (forall p, In p (discs ev) -> exists w, w <> [] /\ p = pw w /\ live p) /\
      (forall w, live (pw w) -> In (pw w) (discs ev) \/ pw w = p0).
    Proof.
      intros OV fuel L. destruct (pbfs_events g1 g2 ord always_push (fun _ => true) OV) with (fuel := fuel) as (ev & R & ND & HE & HD & HC);
        [reflexivity|exact L|]. exists ev. split; [exact R|]. split; [exact ND|]. split; [|split].
      - intros p a. rewrite HE. split.
        + intros [E Lp]. apply expl_pw in E. destruct E as (w & ->). exists w. rewrite pw_snoc. auto.
        + intros (w & -> & Lw). split; [apply pw_expl; eapply live_snoc; exact Lw|]. rewrite pw_snoc in Lw. exact Lw.
      - intros p D. apply HD in D. destruct D as (q & a & E & Lq & ->). apply expl_pw in E. destruct E as (w & ->).
        exists (w ++ [a]). split; [destruct w; discriminate|]. rewrite pw_snoc. auto.
      - intros w. induction w as [|a w IH] using rev_ind; intros Lw; [right; reflexivity|].
        rewrite pw_snoc in *. apply HC; [|exact Lw]. apply pw_expl. apply live_snoc with a. rewrite pw_snoc. exact Lw.
    Qed.

    (** a visitor that ignores the edges only sees the discovered pairs *)
    Lemma handle_discs {St} (hd : St -> option nat -> option nat -> St * res unit) ev : forall s,
      foreach (handle g1 g2 no_edge hd) s ev = foreach (fun s p => hd s (fst p) (snd p)) s (discs ev).
    Proof.
      induction ev as [|[p a|p] ev IH]; intros s; cbn; [reflexivity|apply IH|].
      destruct (hd s (fst p) (snd p)) as [s' [u|e]]; [apply IH|reflexivity].
    Qed.

    (** ** Inclusion *)
    Definition fin1 (p : qpair) : bool := A_is_final_opt g1 (fst p).
    Definition fin2 (p : qpair) : bool := A_is_final_opt g2 (snd p).
    Definition up (l : list qpair) : bool := existsb (fun p => negb (fin1 p) && fin2 p) l.
    Definition down (l : list qpair) : bool := existsb (fun p => fin1 p && negb (fin2 p)) l.

    Lemma inclusion_fold l : forall ret, (ret = 0 \/ ret = 1 \/ ret = -1)%Z ->
      let u := (ret =? 1)%Z || up l in
      let d := (ret =? -1)%Z || down l in
      let r := foreach (fun s p => inclusion_update g1 g2 s (fst p) (snd p)) ret l in
      if u && d then exists s e, r = (s, Raise e)
      else r = ((if u then 1 else if d then -1 else 0)%Z, Ok tt).
    Proof.
      induction l as [|p l IH]; intros ret R; cbv zeta.
      - cbn. destruct R as [->|[->| ->]]; reflexivity.
      - cbn [foreach up down existsb]. fold (up l) (down l). unfold inclusion_update.
        fold (fin1 p) (fin2 p). cbv zeta in IH.
        destruct (fin1 p), (fin2 p); cbn [xorb negb andb orb].
        + apply IH. exact R.
        + destruct R as [->|[->| ->]]; cbn [Z.eqb Pos.eqb].
          * specialize (IH (-1)%Z ltac:(auto)). cbn in *. exact IH.
          * cbn. rewrite ?orb_true_r. cbn. eexists _, _. reflexivity.
          * specialize (IH (-1)%Z ltac:(auto)). cbn in *. exact IH.
        + destruct R as [->|[->| ->]]; cbn [Z.eqb Pos.eqb].
          * specialize (IH 1%Z ltac:(auto)). cbn in *. exact IH.
          * specialize (IH 1%Z ltac:(auto)). cbn in *. exact IH.
          * cbn. eexists _, _. reflexivity.
        + apply IH. exact R.
    Qed.

    Lemma inclusion_run ord fuel : valid_order ord -> pbfs_fuel g1 g2 <= fuel ->
      exists u d, deterministic_inclusion g1 g2 ord fuel =
        Some (if u && d then None else Some (if u then 1 else if d then -1 else 0)%Z) /\
      (u = true <-> exists w, A_accepts g1 w = false /\ A_accepts g2 w = true) /\
      (d = true <-> exists w, A_accepts g1 w = true /\ A_accepts g2 w = false).
    Proof.
      intros OV L. destruct (always_events ord OV fuel L) as (ev & R & _ & _ & HD & HC).
      exists (up (p0 :: discs ev)), (down (p0 :: discs ev)).
      assert (Ex : forall f : qpair -> bool, f (None, None) = false ->
        existsb f (p0 :: discs ev) = true <-> exists w, f (pw w) = true).
      { intros f F0. rewrite existsb_exists. split.
        - intros (p & [<-|I] & Fp); [exists []; exact Fp|]. apply HD in I. destruct I as (w & _ & -> & _). exists w. exact Fp.
        - intros (w & Fw). exists (pw w). split; [|exact Fw].
          assert (Lw : live (pw w)) by (intros E; rewrite E, F0 in Fw; discriminate).
          destruct (HC w Lw) as [I|I]; [right; exact I|left; symmetry; exact I]. }
      split; [|split].
      - unfold deterministic_inclusion. rewrite R.
        pose proof (inclusion_fold (p0 :: discs ev) 0%Z ltac:(auto)) as F. cbv zeta in F. cbn [Z.eqb orb] in F.
        cbn [foreach] in F. cbn [fst snd p0] in F.
        destruct (inclusion_update g1 g2 0 (A_initial g1) (A_initial g2)) as [s' [x|e]].
        + rewrite handle_discs. destruct (up (p0 :: discs ev) && down (p0 :: discs ev)).
          * destruct F as (s & e & ->). reflexivity.
          * rewrite F. reflexivity.
        + destruct (up (p0 :: discs ev) && down (p0 :: discs ev)).
          * reflexivity.
          * discriminate.
      - unfold up. rewrite Ex by reflexivity. split; intros (w & X); exists w; rewrite !accepts_final in *.
        + unfold fin1, fin2, pw in X. cbn in X. apply andb_true_iff in X. rewrite negb_true_iff in X. exact X.
        + unfold fin1, fin2, pw. cbn. rewrite andb_true_iff, negb_true_iff. exact X.
      - unfold down. rewrite Ex by reflexivity. split; intros (w & X); exists w; rewrite !accepts_final in *.
        + unfold fin1, fin2, pw in X. cbn in X. apply andb_true_iff in X. rewrite negb_true_iff in X. exact X.
        + unfold fin1, fin2, pw. cbn. rewrite andb_true_iff, negb_true_iff. exact X.
    Qed.

    (** ** Matching *)
    Definition class (p : qpair) : nat := (if fin1 p then 1 else 0) + 2 * (if fin2 p then 1 else 0).
    Definition tally (l : list qpair) (i : nat) : nat := length (filter (fun p => class p =? i) l).

    Lemma matching_fold l : forall c0 c1 c2 c3,
      foreach (fun s p => matching_update g1 g2 s (fst p) (snd p)) [c0; c1; c2; c3] l =
      ([c0 + tally l 0; c1 + tally l 1; c2 + tally l 2; c3 + tally l 3], Ok tt).
    Proof.
      unfold tally. induction l as [|p l IH]; intros c0 c1 c2 c3; cbn [foreach filter length].
      - rewrite !Nat.add_0_r. reflexivity.
      - unfold matching_update. fold (fin1 p) (fin2 p). fold (class p).
        assert (C : class p = 0 \/ class p = 1 \/ class p = 2 \/ class p = 3) by (unfold class; destruct (fin1 p), (fin2 p); cbn; auto).
        destruct C as [->|[->|[->| ->]]]; cbn [bump firstn skipn nth app Nat.eqb length]; rewrite IH; cbn [length];
          (apply f_equal2; [|reflexivity]); repeat (apply f_equal2; [lia|]); reflexivity.
    Qed.

    Lemma matching_run word1 word2 ord fuel : shape g1 word1 -> shape g2 word2 -> valid_order ord -> pbfs_fuel g1 g2 <= fuel ->
      forall P, NoDup P -> (forall u, In u P <-> has_word g1 word1 u \/ has_word g2 word2 u) ->
      let count f1 f2 := length (filter (fun u => eqb (A_accepts g1 u) f1 && eqb (A_accepts g2 u) f2) P) in
      trie_matching g1 g2 ord fuel = Some ([count false false; count true false; count false true; count true true], Ok tt).
    Proof.
      intros S1 S2 OV L P NP HP count. destruct (always_events ord OV fuel L) as (ev & R & ND & _ & HD & HC).
      assert (D1 : forall g word u, shape g word -> has_word g word u <-> A_delta_word g (A_initial g) u <> None).
      { intros g word u S. rewrite (sh_q0 _ _ S). unfold has_word. split.
        - intros (v & I & W). rewrite (proj2 (shape_path _ _ S u v) (conj I W)). discriminate.
        - destruct (A_delta_word g (Some 0) u) as [v|] eqn:E; [|congruence]. intros _. exists v. apply (shape_path _ _ S). exact E. }
      assert (LP : forall u, In u P <-> live (pw u)).
      { intros u. rewrite HP, (D1 _ _ _ S1), (D1 _ _ _ S2). unfold live, pw.
        destruct (A_delta_word g1 (A_initial g1) u), (A_delta_word g2 (A_initial g2) u); split; intros X; try congruence; try tauto;
          try (left; congruence); try (right; congruence). }
      assert (Inj : forall u v, live (pw u) -> pw u = pw v -> u = v).
      { intros u v Lu E. unfold pw, live in *. rewrite (sh_q0 _ _ S1), (sh_q0 _ _ S2) in *. injection E as E1 E2.
        destruct (A_delta_word g1 (Some 0) u) as [x|] eqn:X1.
        - symmetry in E1. apply (shape_path _ _ S1) in X1, E1. destruct X1 as [_ <-], E1 as [_ <-]. reflexivity.
        - destruct (A_delta_word g2 (Some 0) u) as [x|] eqn:X2; [|congruence].
          symmetry in E2. apply (shape_path _ _ S2) in X2, E2. destruct X2 as [_ <-], E2 as [_ <-]. reflexivity. }
      assert (L0 : live (pw [])) by (unfold live, pw; cbn; rewrite (sh_q0 _ _ S1); discriminate).
      assert (PM : Permutation (p0 :: discs ev) (map pw P)).
      { apply NoDup_Permutation.
        - constructor; [|exact ND]. intros I. apply HD in I. destruct I as (w & Nw & E & _). change p0 with (pw []) in E.
          apply Inj in E; [congruence|exact L0].
        - apply NoDup_map_inj_in; [exact NP|]. intros u v Iu _ E. apply Inj; [apply LP; exact Iu|exact E].
        - intros p. rewrite in_map_iff. split.
          + intros [<-|I]; [exists []; split; [reflexivity|apply LP; exact L0]|].
            apply HD in I. destruct I as (w & _ & -> & Lw). exists w. split; [reflexivity|apply LP; exact Lw].
          + intros (w & <- & Iw). apply LP in Iw. destruct (HC w Iw) as [I|I]; [right; exact I|left; symmetry; exact I]. }
      unfold trie_matching. rewrite R. pose proof (matching_fold (p0 :: discs ev) 0 0 0 0) as F. cbn [foreach] in F.
      cbn [fst snd p0] in F. unfold matching_update at 1 in F. unfold matching_update at 1.
      rewrite handle_discs, F. cbn [plus].
      assert (T : forall f1 f2 : bool, tally (p0 :: discs ev) ((if f1 then 1 else 0) + 2 * (if f2 then 1 else 0)) = count f1 f2).
      { intros f1 f2. unfold tally, count.
        assert (PF : forall X (f : X -> bool) l1 l2, Permutation l1 l2 -> length (filter f l1) = length (filter f l2)).
        { intros X f l1 l2 Pm. apply Permutation_length. apply filter_perm. exact Pm. }
        rewrite (PF _ _ _ _ PM). clear. induction P as [|u P IH]; cbn [map filter]; [reflexivity|].
        assert (E : (class (pw u) =? (if f1 then 1 else 0) + 2 * (if f2 then 1 else 0)) =
                    eqb (A_accepts g1 u) f1 && eqb (A_accepts g2 u) f2).
        { rewrite !accepts_final. unfold class, fin1, fin2, pw. cbn [fst snd].
          destruct (A_is_final_opt g1 _), (A_is_final_opt g2 _), f1, f2; reflexivity. }
        rewrite E. destruct (eqb (A_accepts g1 u) f1 && eqb (A_accepts g2 u) f2); cbn [length]; congruence. }
      pose proof (T false false) as T0. pose proof (T true false) as T1. pose proof (T false true) as T2. pose proof (T true true) as T3.
      cbn [plus Nat.mul] in T0, T1, T2, T3. rewrite T0, T1, T2, T3. reflexivity.
    Qed.

    (** ** Products *)
    Variable op : bool -> bool -> bool.
    Variable dom : qpair -> Prop.
    Hypothesis dom_live : forall p, dom p -> live p.

    (** the pairs that are marked initial when they are created *)
    Definition ini (p : qpair) : bool := op (A_is_initial_opt g1 (fst p)) (A_is_initial_opt g2 (snd p)).

    Record Pinv (s : aut A * dict qpair nat) (E : qpair * A -> Prop) (M : qpair -> Prop) : Prop := {
      v_lt : forall v, In v (A_vertices (fst s)) -> v < au_last (fst s);
      v_map : forall p v, dget (snd s) p = Some v -> In v (A_vertices (fst s)) /\ dom p;
      v_inj : forall p q v, dget (snd s) p = Some v -> dget (snd s) q = Some v -> p = q;
      v_dom : forall p, dget (snd s) p <> None <-> M p;
      v_edge : forall v a r, A_delta (fst s) v a = Some r <->
        exists p, dget (snd s) p = Some v /\ E (p, a) /\ dget (snd s) (succ g1 g2 p a) = Some r;
      v_dest : forall p a, E (p, a) -> M p /\ M (succ g1 g2 p a);
      v_fin : forall v, A_is_final (fst s) v = true <-> exists p, dget (snd s) p = Some v /\ op (fin1 p) (fin2 p) = true;
      v_q0 : (exists p v, dget (snd s) p = Some v /\ ini p = true /\ A_initial (fst s) = Some v) \/
             (forall p, M p -> ini p = false);
      v_all : NoDup (A_vertices (fst s)) /\ forall v, In v (A_vertices (fst s)) -> exists p, dget (snd s) p = Some v }.

    Lemma get_or_create_spec s E M p : Pinv s E M -> dom p ->
      exists s' v, get_or_create op g1 g2 s (fst p) (snd p) = (s', Ok v) /\ dget (snd s') p = Some v /\
        Pinv s' E (fun q => M q \/ q = p) /\ (forall q w, dget (snd s) q = Some w -> dget (snd s') q = Some w).
    Proof.
      intros I D. pose proof (dom_live p D) as Lp.
      destruct s as [g m]. cbn [fst snd] in *.
      assert (G : get_or_create op g1 g2 (g, m) (fst p) (snd p) =
                  match dget m p with Some v => ((g, m), Ok v) | None => add_product_vertex op g1 g2 (g, m) (fst p) (snd p) end).
      { unfold get_or_create. cbn [fst snd]. destruct p as [[q1|] [q2|]]; cbn [fst snd]; try reflexivity. exfalso. apply Lp. reflexivity. }
      rewrite G. destruct (dget m p) as [v|] eqn:Em.
      - exists (g, m), v. split; [reflexivity|]. split; [exact Em|]. split; [|auto].
        destruct I as [I1 I2 I3 I4 I5 I6 I7 I8 I9]. constructor; try assumption.
        + intros q. rewrite I4. split; [auto|]. intros [X|X]; [exact X|]. subst q. apply I4. cbn. congruence.
        + intros q a X. apply I6 in X. tauto.
        + destruct I8 as [I8|I8]; [left; exact I8|right]. intros q [X|X]; [apply I8; exact X|]. subst q. apply I8, I4. cbn. congruence.
      - unfold add_product_vertex, A_add_vertex. cbn [fst snd].
        set (n := au_last g) in *.
        assert (NI : ~ In n (A_vertices g)) by (intros X; apply (v_lt _ _ _ I) in X; cbn in X; unfold n in X; lia).
        set (i := op (A_is_initial_opt g1 (fst p)) (A_is_initial_opt g2 (snd p))) in *.
        set (f := op (A_is_final_opt g1 (fst p)) (A_is_final_opt g2 (snd p))) in *.
        set (g' := mkAut (S n) (dset (au_adj g) n []) (if i then Some n else au_q0 g)
                     (fun x => if f then if eqb x n then true else au_final g x else au_final g x)).
        match goal with |- exists s' v, ((?gg, _), _) = _ /\ _ => assert (EG : A_vertices gg = A_vertices g' /\ au_last gg = au_last g' /\
          (forall x a, A_delta gg x a = A_delta g' x a) /\ (forall x, A_is_final gg x = A_is_final g' x) /\ A_initial gg = A_initial g') by (unfold g'; destruct i, f; repeat split; reflexivity); set (gx := gg) in * end.
        destruct EG as (EV & EL & ED & EF & EQ).
        exists (gx, dset m p n), n. destruct p as [q1 q2]. cbn [fst snd] in *. split; [reflexivity|].
        split; [rewrite dget_dset, eqb_refl; reflexivity|].
        assert (Vg : A_vertices g' = A_vertices g ++ [n]) by (apply dkeys_dset_new; exact NI).
        assert (Dg : forall x a, A_delta g' x a = A_delta g x a).
        { intros x a. unfold A_delta, g'. cbn [au_adj]. rewrite dget_dset. destruct (eqb_spec x n) as [->|]; [|reflexivity].
          rewrite (proj2 (dget_None (au_adj g) n) NI). reflexivity. }
        destruct I as [I1 I2 I3 I4 I5 I6 I7 I8 I9]. cbn [fst snd] in *.
        assert (Dm : forall q w, dget m q = Some w -> dget (dset m (q1, q2) n) q = Some w).
        { intros q w X. rewrite dget_dset. destruct (eqb_spec q (q1, q2)) as [->|]; [congruence|exact X]. }
        assert (Dn : forall q w, dget (dset m (q1, q2) n) q = Some w -> (q = (q1, q2) /\ w = n) \/ (q <> (q1, q2) /\ dget m q = Some w)).
        { intros q w X. rewrite dget_dset in X. destruct (eqb_spec q (q1, q2)) as [->|]; [left; split; congruence|right; auto]. }
        split; [|exact Dm]. constructor; cbn [fst snd]; rewrite ?EV, ?EL, ?EQ.
        + intros v X. rewrite Vg in X. apply in_app_iff in X. cbn. destruct X as [X|[<-|[]]]; [apply I1 in X; lia|lia].
        + intros q w X. rewrite Vg, in_app_iff. apply Dn in X. destruct X as [[-> ->]|[_ X]]; [cbn; auto|].
          apply I2 in X. tauto.
        + intros q q' w X Y. apply Dn in X, Y. destruct X as [[-> ->]|[NX X]], Y as [[-> EW]|[NY Y]]; try reflexivity.
          * apply I2 in Y. tauto.
          * subst w. apply I2 in X. tauto.
          * eapply I3; eassumption.
        + intros q. rewrite dget_dset. destruct (eqb_spec q (q1, q2)) as [->|N]; [split; [auto|discriminate]|].
          rewrite I4. intuition congruence.
        + intros v a r. rewrite ED, Dg, I5. split.
          * intros (q & X & Y & Z). exists q. auto.
          * intros (q & X & Y & Z). destruct (I6 _ _ Y) as [M1 M2]. apply I4 in M1, M2. exists q.
            apply Dn in X, Z. destruct X as [[-> ->]|[_ X]]; [congruence|]. destruct Z as [[Z1 _]|[_ Z]]; [congruence|auto].
        + intros q a X. apply I6 in X. tauto.
        + intros v. rewrite EF. unfold g', A_is_final. cbn [au_final]. fold (fin1 (q1, q2)) (fin2 (q1, q2)) in f.
          split.
          * intros X. assert (C : (v = n /\ f = true) \/ A_is_final g v = true).
            { unfold A_is_final. destruct f; [|auto]. destruct (eqb_spec v n); auto. }
            destruct C as [[-> C]|C].
            -- exists (q1, q2). split; [rewrite dget_dset, eqb_refl; reflexivity|exact C].
            -- apply I7 in C. destruct C as (q & Y & Z). exists q. auto.
          * intros (q & Y & Z). apply Dn in Y. destruct Y as [[-> ->]|[_ Y]].
            -- unfold f. change (op (fin1 (q1, q2)) (fin2 (q1, q2)) = true) in Z. unfold fin1, fin2 in Z. cbn [fst snd] in Z. rewrite Z, eqb_refl. reflexivity.
            -- assert (X : A_is_final g v = true) by (apply I7; exists q; auto). unfold A_is_final in X. rewrite X.
               destruct f, (eqb v n); reflexivity.
        + unfold g', A_initial. cbn [au_q0]. destruct i eqn:Ei.
          * left. exists (q1, q2), n. split; [rewrite dget_dset, eqb_refl; reflexivity|]. split; [exact Ei|reflexivity].
          * destruct I8 as [(q & w & X & Y & Z)|I8].
            -- left. exists q, w. auto.
            -- right. intros q [X| ->]; [apply I8; exact X|exact Ei].
        + rewrite Vg. destruct I9 as [I9 I10]. split.
          * apply NoDup_snoc; assumption.
          * intros v X. apply in_app_iff in X. destruct X as [X|[<-|[]]].
            -- destruct (I10 v X) as (q & Y). exists q. auto.
            -- exists (q1, q2). rewrite dget_dset, eqb_refl. reflexivity.
    Qed.

    Lemma source_get_edge g q (a : A) : medge_source (get_edge g q a) = q.
    Proof. destruct q; reflexivity. Qed.
    Lemma target_get_edge g q (a : A) : medge_target (get_edge g q a) = odelta g q a.
    Proof. destruct q; reflexivity. Qed.

    Lemma Pinv_ext s E M E' M' : Pinv s E M -> (forall x, E x <-> E' x) -> (forall x, M x <-> M' x) -> Pinv s E' M'.
    Proof.
      intros [I1 I2 I3 I4 I5 I6 I7 I8 I9] HE HM. constructor; try assumption.
      - intros p. rewrite I4. apply HM.
      - intros v a r. rewrite I5. split; intros (p & X & Y & Z); exists p; (split; [exact X|split; [apply HE; exact Y|exact Z]]).
      - intros p a X. apply HE, I6 in X. rewrite <- !HM. exact X.
      - destruct I8 as [I8|I8]; [left; exact I8|right]. intros p X. apply I8, HM. exact X.
    Qed.

    Lemma add_product_edge_spec s E M p a : Pinv s E M -> dom p -> dom (succ g1 g2 p a) ->
      exists s', add_product_edge op g1 g2 s (get_edge g1 (fst p) a) (get_edge g2 (snd p) a) a = (s', Ok tt) /\
        Pinv s' (fun x => E x \/ x = (p, a)) (fun q => M q \/ q = p \/ q = succ g1 g2 p a).
    Proof.
      intros I Dp Dr. unfold add_product_edge. rewrite !source_get_edge, !target_get_edge.
      destruct (get_or_create_spec s E M p I Dp) as (s1 & v & -> & Ev & I1 & O1).
      destruct (get_or_create_spec s1 _ _ (succ g1 g2 p a) I1 Dr) as (s2 & r & G2 & Er & I2 & O2).
      change (odelta g1 (fst p) a) with (fst (succ g1 g2 p a)). change (odelta g2 (snd p) a) with (snd (succ g1 g2 p a)).
      rewrite G2. apply O2 in Ev. destruct s2 as [g m]. cbn [fst snd] in *.
      assert (Iv : In v (A_vertices g)) by (apply (v_map _ _ _ I2) in Ev; tauto).
      apply key_dget in Iv. destruct Iv as (d & Ed).
      (* either the transition is new (or towards 0) and stored, or it already exists *)
      assert (Old : forall r', A_delta g v a = Some r' -> r' = r).
      { intros r' X. apply (v_edge _ _ _ I2) in X. destruct X as (p' & X & _ & Z). cbn [fst snd] in *.
        assert (p' = p) by (eapply (v_inj _ _ _ I2); cbn; eassumption). subst p'. congruence. }
      set (g' := mkAut (au_last g) (dset (au_adj g) v (dset d a r)) (au_q0 g) (au_final g)).
      assert (AD : forall x b y, A_delta g' x b = Some y <-> (x = v /\ b = a /\ y = r) \/ A_delta g x b = Some y).
      { intros x b y. unfold A_delta at 1. unfold g'. cbn [au_adj]. rewrite dget_dset. destruct (eqb_spec x v) as [->|Nx].
        - rewrite dget_dset. destruct (eqb_spec b a) as [->|Nb].
          + split; [intros Y; left; repeat split; congruence|]. intros [(_ & _ & ->)|Y]; [reflexivity|]. apply Old in Y. congruence.
          + unfold A_delta. rewrite Ed. split; [auto|]. intros [(_ & -> & _)|Y]; [congruence|exact Y].
        - split; [auto|]. intros [(-> & _ & _)|Y]; [congruence|exact Y]. }
      assert (AE : exists gx o, A_add_edge g v r a = (gx, Ok o) /\ A_vertices gx = A_vertices g /\ au_last gx = au_last g /\
                A_initial gx = A_initial g /\ (forall x, A_is_final gx x = A_is_final g x) /\
                (forall x b y, A_delta gx x b = Some y <-> (x = v /\ b = a /\ y = r) \/ A_delta g x b = Some y)).
      { unfold A_add_edge. rewrite Ed. destruct (A_delta g v a) as [[|r']|] eqn:X; cbn [negb].
        2:{ exists g, (None, false). do 4 (split; [reflexivity|]). split; [reflexivity|]. intros x b y. split; [auto|].
            intros [(-> & -> & ->)|Y]; [|exact Y]. rewrite X. f_equal. apply Old. reflexivity. }
        all: exists g', (Some (Edge v r a), true); split; [reflexivity|]; split; [unfold A_vertices, g'; cbn [au_adj]; apply dkeys_dset_old; eapply dget_Some_key; exact Ed|];
          split; [reflexivity|]; split; [reflexivity|]; split; [reflexivity|]; exact AD. }
      destruct AE as (gx & o & -> & EV & EL & EQ & EF & ED). exists (gx, m). split; [reflexivity|].
      destruct I2 as [J1 J2 J3 J4 J5 J6 J7 J8 J9]. cbn [fst snd] in *.
      constructor; cbn [fst snd]; rewrite ?EV, ?EL, ?EQ; try assumption.
      - intros q. rewrite J4. tauto.
      - intros x b y. rewrite ED, J5. split.
        + intros [(-> & -> & ->)|(q & X & Y & Z)]; [exists p; auto|exists q; auto].
        + intros (q & X & [Y|Y] & Z); [right; exists q; auto|]. injection Y as -> ->. left. repeat split; congruence.
      - intros q b [X|X]; [apply J6 in X; tauto|]. injection X as -> ->. tauto.
      - intros x. rewrite EF. apply J7.
      - destruct J8 as [J8|J8]; [left; exact J8|right]. intros q X. apply J8. tauto.
    Qed.

    Lemma Pinv_init : Pinv (A_init 0, []) (fun _ => False) (fun _ => False).
    Proof.
      constructor; cbn [fst snd dget].
      - intros v [].
      - discriminate.
      - discriminate.
      - intros p. tauto.
      - intros v a r. split; [discriminate|]. intros (p & X & _). discriminate.
      - tauto.
      - intros v. split; [discriminate|]. intros (p & X & _). discriminate.
      - right. intros p [].
      - split; [constructor|]. intros v [].
    Qed.

    (** ** Language of a product *)
    (** every step of the walk reading [w] from [p] is a stored edge *)
    Fixpoint walk (E : qpair * A -> Prop) (p : qpair) (w : list A) : Prop :=
      match w with
      | [] => True
      | a :: w' => E (p, a) /\ walk E (succ g1 g2 p a) w'
      end.
    Fixpoint pwf (p : qpair) (w : list A) : qpair :=
      match w with [] => p | a :: w' => pwf (succ g1 g2 p a) w' end.

    Lemma pwf_pw w : pwf p0 w = pw w.
    Proof.
      assert (X : forall w p, pwf p w = (A_delta_word g1 (fst p) w, A_delta_word g2 (snd p) w)).
      { clear. induction w as [|a w IH]; intros [q1 q2]; cbn [pwf]; [reflexivity|]. rewrite IH. unfold succ. cbn.
        destruct q1, q2; cbn; rewrite ?delta_word_None; reflexivity. }
      rewrite X. reflexivity.
    Qed.

    Lemma product_word s E M : Pinv s E M -> forall w p v, dget (snd s) p = Some v -> forall r,
      A_delta_word (fst s) (Some v) w = Some r <-> walk E p w /\ dget (snd s) (pwf p w) = Some r.
    Proof.
      intros I. induction w as [|a w IH]; intros p v Ev r; cbn [A_delta_word walk pwf].
      - rewrite Ev. tauto.
      - destruct (A_delta (fst s) v a) as [x|] eqn:X.
        + apply (v_edge _ _ _ I) in X. destruct X as (p' & X & Y & Z).
          assert (p' = p) by (eapply (v_inj _ _ _ I); eassumption). subst p'. rewrite (IH _ _ Z). tauto.
        + rewrite delta_word_None. split; [discriminate|]. intros [[Y _] _]. exfalso.
          destruct (v_dest _ _ _ I _ _ Y) as [_ Z]. apply (v_dom _ _ _ I) in Z.
          destruct (dget (snd s) (succ g1 g2 p a)) as [y|] eqn:Ey; [|congruence].
          assert (W : A_delta (fst s) v a = Some y) by (apply (v_edge _ _ _ I); exists p; auto). congruence.
    Qed.

    (** some created pair marked initial is the initial state *)
    Lemma product_accepts s E M : Pinv s E M -> (exists p, M p /\ ini p = true) -> exists p, M p /\ ini p = true /\ forall w,
      A_accepts (fst s) w = true <-> walk E p w /\ op (fin1 (pwf p w)) (fin2 (pwf p w)) = true.
    Proof.
      intros I (p' & Mp' & Ip').
      destruct (v_q0 _ _ _ I) as [(p & v & Ev & Ip & Eq)|N]; [|rewrite (N p' Mp') in Ip'; discriminate].
      exists p. split; [apply (v_dom _ _ _ I); congruence|]. split; [exact Ip|]. intros w.
      unfold A_accepts. rewrite Eq. pose proof (product_word s E M I w p v Ev) as PW.
      destruct (A_delta_word (fst s) (Some v) w) as [r|] eqn:X.
      - destruct (proj1 (PW r) eq_refl) as [W D]. rewrite (v_fin _ _ _ I). split.
        + intros (q & Y & Z). assert (q = pwf p w) by (eapply (v_inj _ _ _ I); eassumption). subst q. auto.
        + intros [_ Z]. exists (pwf p w). auto.
      - split; [discriminate|]. intros [W Z]. exfalso.
        assert (Mw : M (pwf p w)).
        { assert (Mp : M p) by (apply (v_dom _ _ _ I); congruence). clear -W I Mp. revert p Mp W.
          induction w as [|b w IH]; intros p Mp; cbn; [auto|].
          intros [Wb W]. apply IH; [|exact W]. apply (v_dest _ _ _ I) in Wb. tauto. }
        apply (v_dom _ _ _ I) in Mw. destruct (dget (snd s) (pwf p w)) as [y|] eqn:Ey; [|congruence].
        specialize (proj2 (PW y) (conj W eq_refl)). discriminate.
    Qed.

    (** only the source pair is marked initial *)
    Lemma product_accepts0 s E M : Pinv s E M -> M p0 -> ini p0 = true -> (forall p, M p -> ini p = true -> p = p0) -> forall w,
      A_accepts (fst s) w = true <-> walk E p0 w /\ op (fin1 (pw w)) (fin2 (pw w)) = true.
    Proof.
      intros I M0 I0 U w. destruct (product_accepts s E M I) as (p & Mp & Ip & H); [exists p0; auto|].
      rewrite (U p Mp Ip) in H. rewrite <- pwf_pw. apply H.
    Qed.

    (** an automaton without any edge nor vertex accepts nothing *)
    Lemma product_empty s E M : Pinv s E M -> (forall p, ~ M p) -> forall w, A_accepts (fst s) w = false.
    Proof.
      intros I M0 w. unfold A_accepts. destruct (A_delta_word (fst s) (A_initial (fst s)) w) as [r|]; [|reflexivity].
      destruct (A_is_final (fst s) r) eqn:F; [|reflexivity]. apply (v_fin _ _ _ I) in F. destruct F as (p & X & _).
      exfalso. apply (M0 p). apply (v_dom _ _ _ I). congruence.
    Qed.
  End Two.
End P.
