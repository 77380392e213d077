(** Lemmas on automaton_insert_string. *)
From Verif Require Import Base BaseProofs Graph GraphProofs Automaton AutomatonSpec AutomatonProofs AutomatonProofs2 Trie TrieSpec TrieProofs Insert.
#[local] Arguments dkeys : simpl never.

Section P.
  Context {A : Type} {EA : EqDec A}.

  (** the edges added for the word u from the state q, the first new state being k, and the last state *)
  Fixpoint chain (q k : nat) (u : list A) : list (edge A) := match u with [] => [] | a :: u' => Edge q k a :: chain k (S k) u' end.
  Fixpoint chain_end (q k : nat) (u : list A) : nat := match u with [] => q | _ :: u' => chain_end k (S k) u' end.
  Definition st (q k m : nat) : nat := match m with 0 => q | S m' => k + m' end.

  (** ** Paths *)
  Lemma path_sub (T T' : list (edge A)) q w r : incl T T' -> path T q w r -> path T' q w r.
  Proof. intros I. induction 1; [constructor|]. econstructor; [apply I; eassumption|assumption]. Qed.
  Lemma path_trans (T : list (edge A)) q w r w' t : path T q w r -> path T r w' t -> path T q (w ++ w') t.
  Proof. induction 1; intros P; [exact P|]. cbn. econstructor; [eassumption|auto]. Qed.
  Lemma chain_path u : forall q k, path (chain q k u) q u (chain_end q k u).
  Proof.
    induction u as [|a u IH]; intros q k; [constructor|]. cbn. econstructor; [left; reflexivity|]. eapply path_sub; [|apply IH]. intros e I. right. exact I.
  Qed.
  Lemma chain_end_st u : forall q k, chain_end q k u = st q k (length u).
  Proof. induction u as [|a u IH]; intros q k; [reflexivity|]. cbn. rewrite IH. destruct (length u) as [|n]; cbn; lia. Qed.
  Lemma In_chain u : forall q k s t a, In (Edge s t a) (chain q k u) <-> exists m, nth_error u m = Some a /\ s = st q k m /\ t = k + m.
  Proof.
    induction u as [|b u IH]; intros q k s t a; cbn.
    - split; [intros []|intros ([|m] & X & _); discriminate].
    - rewrite IH. split.
      + intros [[= <- <- <-]|(m & X & -> & ->)]; [exists 0; split; [reflexivity|]; split; [reflexivity|lia]|]. exists (S m). split; [exact X|]. split; [|lia]. destruct m; cbn; lia.
      + intros ([|m] & X & -> & ->); [injection X as <-; left; f_equal; cbn; lia|right]. exists m. split; [exact X|]. split; [|lia]. destruct m; cbn; lia.
  Qed.

  Section Graft.
    Variables (T T' : list (edge A)) (q k : nat) (u : list A).
    Hypothesis HT : forall e, In e T' <-> In e T \/ In e (chain q k u).
    Hypothesis HC : forall e, In e T -> source e < k /\ target e < k.
    Hypothesis Lq : q < k.

    Lemma graft_inside w : forall m r, path T' (k + m) w r -> m < length u -> r = k + m + length w /\ w = firstn (length w) (skipn (S m) u) /\ m + length w < length u.
    Proof.
      induction w as [|a w IH]; intros m r P L; inversion P as [|? ? x ? ? E P']; subst.
      - cbn. split; [lia|]. split; [reflexivity|lia].
      - apply HT in E. destruct E as [E|E]; [apply HC in E; cbn in E; lia|]. apply In_chain in E. destruct E as (m' & X & S1 & ->).
        assert (m' = S m) by (destruct m' as [|m']; cbn in S1; lia). subst m'. destruct (IH (S m) r P') as (-> & E2 & L2); [apply nth_error_Some; congruence|]. cbn [length].
        split; [lia|]. split; [|lia]. rewrite E2 at 1.
        assert (SK : skipn (S m) u = a :: skipn (S (S m)) u). { clear -X. revert m X. induction u as [|b v IH]; intros m X; [discriminate|]. destruct m; cbn in *; [destruct v; [discriminate|cbn in X; injection X as ->; reflexivity]|apply IH, X]. }
        rewrite SK. reflexivity.
    Qed.
    Lemma graft_path w : forall p r, p < k -> path T' p w r -> path T p w r \/ exists y n, path T p y q /\ 0 < n <= length u /\ w = y ++ firstn n u /\ r = k + n - 1.
    Proof.
      induction w as [|a w IH]; intros p r Lp P; inversion P as [|? ? x ? ? E P']; subst; [left; constructor|].
      apply HT in E. destruct E as [E|E].
      - pose proof (HC _ E) as [_ Lx]. cbn in Lx. destruct (IH x r Lx P') as [Q|(y & n & Q & L & -> & ->)]; [left; econstructor; eassumption|right]. exists (a :: y), n. split; [econstructor; eassumption|]. auto.
      - right. apply In_chain in E. destruct E as (m & X & S1 & ->). destruct m as [|m]; cbn in S1; [|lia]. subst p.
        assert (L0 : 0 < length u) by (destruct u; [discriminate|cbn; lia]). destruct (graft_inside w 0 r P' L0) as (-> & E2 & L2).
        exists [], (S (length w)). split; [constructor|]. split; [lia|]. split; [|lia]. cbn. destruct u as [|b v]; [discriminate|]. injection X as ->. cbn. f_equal. rewrite E2 at 1. reflexivity.
    Qed.
    Lemma path_lt p w r : p < k -> path T p w r -> r < k.
    Proof. intros L P. induction P as [|p a m w r E P IH]; [exact L|]. apply IH. apply (HC _ E). Qed.
    Lemma graft_old p w r : p < k -> r < k -> (path T' p w r <-> path T p w r).
    Proof.
      intros Lp Lr. split; intros P.
      - destruct (graft_path w p r Lp P) as [Q|(y & n & _ & L & _ & ->)]; [exact Q|lia].
      - revert P. apply path_sub. intros e I. apply HT. auto.
    Qed.
    Lemma graft_end p w : p < k -> (path T' p w (chain_end q k u) <-> exists y, path T p y q /\ w = y ++ u).
    Proof.
      intros Lp. rewrite chain_end_st. split.
      - intros P. destruct (graft_path w p _ Lp P) as [Q|(y & n & Q & L & -> & E)].
        + pose proof (path_lt _ _ _ Lp Q) as Lr. destruct u as [|a v]; [exists w; rewrite app_nil_r; auto|cbn in Lr; lia].
        + exists y. split; [exact Q|]. f_equal. apply firstn_all2. destruct (length u); cbn in E; lia.
      - intros (y & P & ->). eapply path_trans; [eapply path_sub; [|exact P]; intros e I; apply HT; auto|]. rewrite <- chain_end_st. eapply path_sub; [|apply chain_path]. intros e I. apply HT. auto.
    Qed.
    Lemma graft_middle p w r : p < k -> path T' p w r -> r < k \/ r = chain_end q k u \/ (k <= r < k + length u).
    Proof. intros Lp P. destruct (graft_path w p r Lp P) as [Q|(y & n & _ & L & _ & ->)]; [left; apply (path_lt _ _ _ Lp Q)|right; right; lia]. Qed.
  End Graft.

  (** ** The loop on an Automaton *)
  Lemma arep_src (g : aut A) s e : arep g s -> In e (aa_T s) -> In (source e) (aa_V s).
  Proof.
    intros (_ & V & _ & [_ TR] & _) I. destruct e as [q r a]. apply TR in I. unfold tr in I. cbn. destruct (dget (au_adj g) q) as [d|] eqn:E; [|discriminate]. rewrite <- V. eapply dget_Some_key, E.
  Qed.
  Lemma lookup_none (T : list (edge A)) q a : (forall r, ~ In (Edge q r a) T) -> lookup T q a = None.
  Proof.
    intros H. unfold lookup. destruct (find (same_key q a) T) as [e|] eqn:F; [|reflexivity]. exfalso. apply find_some in F. destruct F as [I F]. unfold same_key in F. apply andb_true_iff in F. destruct F as [F1 F2].
    apply Nat.eqb_eq in F1. apply (proj1 (eqb_eq _ _)) in F2. destruct e as [x y b]. cbn in *. subst. apply (H y I).
  Qed.
  Lemma drop_key_none (T : list (edge A)) q a : lookup T q a = None -> drop_key q a T = T.
  Proof.
    unfold lookup, drop_key. intros L. destruct (find (same_key q a) T) as [e|] eqn:F; [discriminate|]. clear L. induction T as [|e T IH]; [reflexivity|]. cbn in *. destruct (same_key q a e); [discriminate|]. cbn. f_equal. apply IH, F.
  Qed.
  Definition ready (s : aaut A) (q : nat) (u : list A) : Prop := match u with [] => True | a :: _ => lookup (aa_T s) q a = None end.
  Definition grown (s s' : aaut A) (q : nat) (u : list A) : Prop :=
    aa_q0 s' = aa_q0 s /\ aa_final s' = aa_final s /\ aa_next s' = aa_next s + length u /\ (forall v, In v (aa_V s) -> In v (aa_V s')) /\
    (u <> [] -> In (chain_end q (aa_next s) u) (aa_V s')) /\ (forall e, In e (aa_T s') <-> In e (aa_T s) \/ In e (chain q (aa_next s) u)).

  (** the two calls of one turn *)
  Lemma turn (s : aaut A) q a u : In q (aa_V s) -> lookup (aa_T s) q a = None -> (forall v, In v (aa_V s) -> v < aa_next s) -> (forall e, In e (aa_T s) -> In (source e) (aa_V s)) ->
    let k := aa_next s in let s1 := fst (aa_step s AAddVertex) in let s2 := fst (aa_step s1 (AAddEdge q k a)) in
    snd (aa_step s AAddVertex) = AOutVertex k /\ snd (aa_step s1 (AAddEdge q k a)) = AOutEdge (Some (Edge q k a)) true /\
    aa_next s2 = S k /\ aa_V s2 = aa_V s ++ [k] /\ aa_T s2 = aa_T s ++ [Edge q k a] /\ aa_q0 s2 = aa_q0 s /\ aa_final s2 = aa_final s /\ ready s2 k u /\ lookup (aa_T s1) q a = None /\ aa_V s1 = aa_V s ++ [k].
  Proof.
    intros Iq L LT SR k s1 s2. destruct s as [k0 V T q0 f]. cbn [aa_next aa_V aa_T aa_q0 aa_final] in *. subst k. cbn [aa_step fst snd] in s1. subst s1. unfold s2. cbn [aa_step].
    rewrite L. assert (M : mem q (V ++ [k0]) = true) by (apply mem_spec, in_or_app; left; exact Iq). rewrite M. cbn [fst snd aa_next aa_V aa_T aa_q0 aa_final]. rewrite (drop_key_none _ _ _ L).
    do 7 (split; [reflexivity|]). split; [|auto]. unfold ready. destruct u as [|b u]; [exact I|]. cbn [aa_T]. apply lookup_none. intros r X. apply in_app_or in X. destruct X as [X|[[= X _ _]|[]]].
    - apply SR in X. cbn in X. apply LT in X. lia.
    - apply LT in Iq. lia.
  Qed.

  Lemma grown_step s s2 s' q a u : In q (aa_V s) -> aa_next s2 = S (aa_next s) -> aa_V s2 = aa_V s ++ [aa_next s] -> aa_T s2 = aa_T s ++ [Edge q (aa_next s) a] -> aa_q0 s2 = aa_q0 s -> aa_final s2 = aa_final s ->
    grown s2 s' (aa_next s) u -> grown s s' q (a :: u).
  Proof.
    intros Iq N2 V2 T2 Q2 F2 (H1 & H2 & H3 & H4 & H5 & H6). rewrite N2 in *. split; [congruence|]. split; [congruence|]. split; [cbn; lia|]. split; [|split].
    - intros v I. apply H4. rewrite V2. apply in_or_app. auto.
    - intros _. cbn. destruct u as [|b u]; [cbn; apply H4; rewrite V2; apply in_or_app; right; left; reflexivity|apply H5; discriminate].
    - intros e. rewrite H6, T2, in_app_iff. cbn. tauto.
  Qed.

  Lemma insert_loop_grow u : forall g s q, arep g s -> In q (aa_V s) -> ready s q u ->
    exists g' s', insert_loop g q u = (g', Ok (chain_end q (aa_next s) u)) /\ arep g' s' /\ grown s s' q u.
  Proof.
    induction u as [|a u IH]; intros g s q R Iq RD; cbn [insert_loop chain_end].
    - exists g, s. split; [reflexivity|]. split; [exact R|]. unfold grown. cbn. split; [reflexivity|]. split; [reflexivity|]. split; [lia|]. split; [auto|]. split; [congruence|tauto].
    - destruct (turn s q a u Iq RD (proj2 (proj2 (proj2 (proj2 (proj2 (proj2 R)))))) (fun e => arep_src g s e R)) as (O1 & O2 & N2 & V2 & T2 & Q2 & F2 & RD2 & _ & _).
      destruct (A_step g s AAddVertex R) as [R1 E1]. rewrite O1 in E1. cbn [A_call] in R1, E1. destruct (A_add_vertex g) as [g1 r1]. cbn [fst snd] in R1, E1. destruct r1 as [k|x]; [|discriminate]. cbn in E1. injection E1 as ->.
      destruct (A_step g1 _ (AAddEdge q (aa_next s) a) R1) as [R2 E2]. rewrite O2 in E2. cbn [A_call] in R2, E2. destruct (A_add_edge g1 q (aa_next s) a) as [g2 r2]. cbn [fst snd] in R2, E2. destruct r2 as [[e b]|x]; [|discriminate].
      destruct (IH g2 _ (aa_next s) R2) as (g' & s' & E & R' & G); [rewrite V2; apply in_or_app; right; left; reflexivity|exact RD2|]. rewrite N2 in E.
      exists g', s'. split; [exact E|]. split; [exact R'|]. eapply grown_step; eassumption.
  Qed.

  (** ** The loop on an IncidenceAutomaton: a disciplined sequence of calls *)
  Lemma runs_app {S Op Out} (call : S -> Op -> S * Out) l l' : forall s, fst (runs call s (l ++ l')) = fst (runs call (fst (runs call s l)) l').
  Proof. induction l as [|op l IH]; intros s; [reflexivity|]. cbn. destruct (call s op) as [s1 o]. specialize (IH s1). destruct (runs call s1 (l ++ l')), (runs call s1 l). cbn in *. exact IH. Qed.
  Lemma disciplined_app (l l' : list (aop A)) : forall s, disciplined s l -> disciplined (fst (runs ia_step s l)) l' -> disciplined s (l ++ l').
  Proof.
    induction l as [|op l IH]; intros s D D'; [exact D'|]. destruct D as [D1 D2]. cbn. split; [exact D1|]. apply IH; [exact D2|]. cbn in D'. destruct (ia_step s op) as [s1 o]. cbn in *. destruct (runs ia_step s1 l). exact D'.
  Qed.
  Lemma runs_cons {S Op Out} (call : S -> Op -> S * Out) op l s : fst (runs call s (op :: l)) = fst (runs call (fst (call s op)) l).
  Proof. cbn. destruct (call s op) as [s1 o]. cbn. destruct (runs call s1 l). reflexivity. Qed.

  Lemma ia_insert_loop_grow u : forall g s q, iarep g s -> In q (aa_V s) -> ready s q u ->
    exists ops, disciplined s ops /\ IA_insert_loop g q u = (fst (runs IA_call g ops), Ok (chain_end q (aa_next s) u)) /\
      fst (insert_loop (ia_base g) q u) = ia_base (fst (runs IA_call g ops)) /\ grown s (fst (runs ia_step s ops)) q u.
  Proof.
    induction u as [|a u IH]; intros g s q R Iq RD; cbn [insert_loop IA_insert_loop chain_end].
    - exists []. split; [exact I|]. split; [reflexivity|]. split; [reflexivity|]. unfold grown. cbn. split; [reflexivity|]. split; [reflexivity|]. split; [lia|]. split; [auto|]. split; [congruence|tauto].
    - pose proof (proj1 R) as RB. destruct (turn s q a u Iq RD (proj2 (proj2 (proj2 (proj2 (proj2 (proj2 RB)))))) (fun e => arep_src _ s e RB)) as (O1 & O2 & N2 & V2 & T2 & Q2 & F2 & RD2 & L1 & V1).
      destruct (IA_step g s AAddVertex R I) as [R1 E1]. change (ia_step s AAddVertex) with (aa_step s AAddVertex) in *. rewrite O1 in E1.
      assert (D2 : ia_disciplined (fst (aa_step s AAddVertex)) (AAddEdge q (aa_next s) a)). { cbn [ia_disciplined]. rewrite V1, L1, !in_app_iff. cbn. split; [auto|]. split; [auto|discriminate]. }
      destruct (IA_step _ _ (AAddEdge q (aa_next s) a) R1 D2) as [R2 E2]. change (ia_step (fst (aa_step s AAddVertex)) (AAddEdge q (aa_next s) a)) with (aa_step (fst (aa_step s AAddVertex)) (AAddEdge q (aa_next s) a)) in *. rewrite O2 in E2.
      assert (B1 : A_add_vertex (ia_base g) = (ia_base (fst (IA_call g AAddVertex)), Ok (aa_next s))).
      { clear -E1. cbn [IA_call] in *. unfold IA_add_vertex in *. destruct (A_add_vertex (ia_base g)) as [b [k|x]]; cbn in *; [injection E1 as ->; reflexivity|discriminate]. }
      assert (I1 : IA_add_vertex g = (fst (IA_call g AAddVertex), Ok (aa_next s))).
      { clear -E1. cbn [IA_call] in *. destruct (IA_add_vertex g) as [b [k|x]]; cbn in *; [injection E1 as ->; reflexivity|discriminate]. }
      set (g1 := fst (IA_call g AAddVertex)) in *.
      assert (I2 : exists e b, IA_add_edge g1 q (aa_next s) a = (fst (IA_call g1 (AAddEdge q (aa_next s) a)), Ok (e, b))).
      { clear -E2. cbn [IA_call] in *. destruct (IA_add_edge g1 q (aa_next s) a) as [b [[e bb]|x]]; cbn in *; [eauto|discriminate]. }
      assert (B2 : exists e b, A_add_edge (ia_base g1) q (aa_next s) a = (ia_base (fst (IA_call g1 (AAddEdge q (aa_next s) a))), Ok (e, b))).
      { clear -E2. cbn [IA_call] in *. unfold IA_add_edge in *. destruct (A_add_edge (ia_base g1) q (aa_next s) a) as [b [[e [|]]|x]]; cbn [fst snd ia_base] in *; [|eauto|discriminate].
        destruct (dget (ia_in g1) (aa_next s)); cbn [fst snd ia_base] in *; [eauto|discriminate]. }
      set (g2 := fst (IA_call g1 (AAddEdge q (aa_next s) a))) in *. destruct I2 as (e & b & I2). destruct B2 as (e' & b' & B2).
      destruct (IH g2 _ (aa_next s) R2) as (ops & D & H1 & H2 & H3); [rewrite V2; apply in_or_app; right; left; reflexivity|exact RD2|]. rewrite N2 in H1.
      exists (AAddVertex :: AAddEdge q (aa_next s) a :: ops). split; [split; [exact I|split; [exact D2|exact D]]|].
      rewrite !runs_cons. fold g1. fold g2. rewrite I1, I2, B1, B2. split; [exact H1|]. split; [exact H2|].
      change (ia_step s AAddVertex) with (aa_step s AAddVertex). change (ia_step (fst (aa_step s AAddVertex)) (AAddEdge q (aa_next s) a)) with (aa_step (fst (aa_step s AAddVertex)) (AAddEdge q (aa_next s) a)). eapply grown_step; eassumption.
  Qed.

  (** ** Reading as much as possible *)
  Lemma best_effort_reads (g : aut A) s w : arep g s -> (forall e, In e (aa_T s) -> In (target e) (aa_V s)) -> forall q i, In q (aa_V s) ->
    exists r k, best_effort g q i w = (r, i + k) /\ k <= length w /\ In r (aa_V s) /\ path (A_edges g) q (firstn k w) r /\ ready s r (skipn k w) /\
      (k < length w -> forall x, ~ path (A_edges g) q (firstn (S k) w) x).
  Proof.
    intros R C. induction w as [|a w IH]; intros q i Iq; cbn [best_effort].
    - exists q, 0. rewrite Nat.add_0_r. cbn. split; [reflexivity|]. split; [lia|]. split; [exact Iq|]. split; [constructor|]. split; [exact I|lia].
    - destruct (A_delta g q a) as [r|] eqn:D.
      + assert (E : In (Edge q r a) (aa_T s)) by (apply (Permutation_in _ (obs_edges g s R)), (obs_delta_edges g s R), D).
        destruct (IH r (S i) (C _ E)) as (x & k & -> & L & Ix & P & RD & M). exists x, (S k). split; [f_equal; lia|]. split; [cbn; lia|]. split; [exact Ix|].
        assert (E' : In (Edge q r a) (A_edges g)) by (apply (obs_delta_edges g s R), D).
        split; [econstructor; eassumption|]. split; [exact RD|]. intros Lk y P'. apply (M ltac:(cbn in Lk; lia) y). cbn in P'. inversion P' as [|? ? r' ? ? E2 P2]; subst.
        apply (obs_delta_edges g s R) in E2. rewrite D in E2. injection E2 as <-. exact P2.
      + exists q, 0. rewrite Nat.add_0_r. split; [reflexivity|]. split; [lia|]. split; [exact Iq|]. split; [constructor|]. cbn [skipn ready]. split; [rewrite <- (obs_delta g s R); exact D|].
        intros _ x P. cbn in P. inversion P as [|? ? r' ? ? E2 P2]; subst. apply (obs_delta_edges g s R) in E2. congruence.
  Qed.
  Lemma insert_string_trie (g : aut A) q w : A_initial g = Some q -> A_insert_string g w = T_insert g w.
  Proof. intros Q. unfold A_insert_string, A_delta_best_effort, T_insert. rewrite Q. destruct (best_effort g q 0 w). reflexivity. Qed.

  (** ** The language after the insertion *)
  Lemma insert_language g s q0 w : arep g s -> A_initial g = Some q0 -> In q0 (aa_V s) -> (forall e, In e (aa_T s) -> In (target e) (aa_V s)) -> (forall v, aa_next s <= v -> aa_final s v = false) ->
    exists g' i q, A_insert_string g w = (g', Ok tt) /\ i <= length w /\ path (A_edges g) q0 (firstn i w) q /\ (i < length w -> forall x, ~ path (A_edges g) q0 (firstn (S i) w) x) /\
      (forall u, A_accepts g' u = true <-> A_accepts g u = true \/ exists x, path (A_edges g) q0 x q /\ u = x ++ skipn i w).
  Proof.
    intros R Q V0 C F. destruct (best_effort_reads g s w R C q0 0 V0) as (q & k & E & L & Iq & P & RD & M).
    destruct (insert_loop_grow (skipn k w) g s q R Iq RD) as (g1 & s1 & E1 & R1 & Q1 & F1 & N1 & V1 & _ & T1).
    exists (A_set_final g1 (chain_end q (aa_next s) (skipn k w)) true), k, q. split; [|split; [exact L|split; [exact P|split; [exact M|]]]].
    - unfold A_insert_string, A_delta_best_effort. rewrite Q, E. cbn [plus]. rewrite E1. reflexivity.
    - set (z := chain_end q (aa_next s) (skipn k w)) in *. pose proof (proj2 (proj2 (proj2 (proj2 (proj2 (proj2 R)))))) as LT.
      destruct (A_step g1 s1 (ASetFinal z true) R1) as [R2 _]. cbn [A_call fst] in R2. intros u. rewrite (accepts_path _ _ R2), (accepts_path _ _ R).
      assert (Q' : A_initial (A_set_final g1 z true) = Some q0). { unfold A_set_final, A_initial in *. cbn. destruct R1 as (_ & _ & _ & _ & X & _). destruct R as (_ & _ & _ & _ & Y & _). congruence. }
      assert (ET : forall e, In e (A_edges (A_set_final g1 z true)) <-> In e (A_edges g) \/ In e (chain q (aa_next s) (skipn k w))).
      { intros e. change (A_edges (A_set_final g1 z true)) with (A_edges g1). split; intros I.
        - apply (Permutation_in _ (obs_edges g1 s1 R1)) in I. apply T1 in I. destruct I as [I|I]; [left; apply (Permutation_in _ (Permutation_sym (obs_edges g s R))), I|auto].
        - apply (Permutation_in _ (Permutation_sym (obs_edges g1 s1 R1))). apply T1. destruct I as [I|I]; [left; apply (Permutation_in _ (obs_edges g s R)), I|auto]. }
      assert (HC : forall e, In e (A_edges g) -> source e < aa_next s /\ target e < aa_next s). { intros e I. apply (Permutation_in _ (obs_edges g s R)) in I. split; apply LT; [apply (arep_src g s e R I)|apply (C e I)]. }
      assert (Lq : q < aa_next s) by (apply LT, Iq). assert (L0 : q0 < aa_next s) by (apply LT, V0).
      assert (FF : forall v, A_is_final (A_set_final g1 z true) v = true <-> v = z \/ A_is_final g v = true).
      { intros v. unfold A_is_final, A_set_final. cbn [au_final]. destruct R1 as (_ & _ & _ & _ & _ & X & _). destruct R as (_ & _ & _ & _ & _ & Y & _). rewrite X, Y, F1. destruct (eqb_spec v z); intuition congruence. }
      split.
      + intros (x & t & Ex & Pt & Ft). rewrite Q' in Ex. injection Ex as <-. apply FF in Ft. destruct Ft as [->|Ft].
        * right. apply (graft_end _ _ _ _ _ ET HC Lq q0 u L0) in Pt. exact Pt.
        * left. exists q0, t. split; [exact Q|]. split; [|exact Ft]. apply (graft_old _ _ _ _ _ ET HC Lq q0 u t L0) in Pt; [exact Pt|].
          destruct (Nat.lt_ge_cases t (aa_next s)) as [X|X]; [exact X|]. specialize (F t X). destruct R as (_ & _ & _ & _ & _ & Y & _). unfold A_is_final in Ft. congruence.
      + intros [(x & t & Ex & Pt & Ft)|H].
        * rewrite Q in Ex. injection Ex as <-. exists q0, t. split; [exact Q'|]. split; [|apply FF; auto]. eapply path_sub; [|exact Pt]. intros e I. apply ET. auto.
        * exists q0, z. split; [exact Q'|]. split; [|apply FF; auto]. apply (graft_end _ _ _ _ _ ET HC Lq q0 u L0). exact H.
  Qed.

  (** on an IncidenceAutomaton: the same base, a disciplined program *)
  Lemma ia_insert_string_sim g s q0 w : iarep g s -> A_initial (ia_base g) = Some q0 -> In q0 (aa_V s) ->
    exists ops g', disciplined s ops /\ fst (runs IA_call g ops) = g' /\ IA_insert_string g w = (g', Ok tt) /\ A_insert_string (ia_base g) w = (ia_base g', Ok tt) /\
      A_initial (ia_base g') = Some q0 /\ In q0 (aa_V (fst (runs ia_step s ops))).
  Proof.
    intros R Q V0. pose proof (proj1 R) as RB. assert (C : forall e, In e (aa_T s) -> In (target e) (aa_V s)) by (intros e I; apply R, I).
    destruct (best_effort_reads (ia_base g) s w RB C q0 0 V0) as (q & k & E & L & Iq & P & RD & M).
    destruct (ia_insert_loop_grow (skipn k w) g s q R Iq RD) as (ops & D & E1 & B1 & Q1 & F1 & N1 & V1 & _).
    destruct (insert_loop_grow (skipn k w) (ia_base g) s q RB Iq RD) as (g1 & s1 & E2 & _).
    destruct (iarep_runs ops g s R D) as [R' _].
    set (z := chain_end q (aa_next s) (skipn k w)) in *. exists (ops ++ [ASetFinal z true]). eexists. split; [apply disciplined_app; [exact D|cbn; auto]|]. split; [reflexivity|].
    rewrite !runs_app. set (gi := fst (runs IA_call g ops)) in *. set (si := fst (runs ia_step s ops)) in *. cbn [runs IA_call fst ia_step].
    unfold IA_insert_string, A_insert_string, A_delta_best_effort. rewrite Q, E. cbn [plus]. rewrite E1, E2. split; [reflexivity|]. rewrite E2 in B1. cbn in B1. subst g1. split; [reflexivity|]. split.
    - cbn [ia_base A_set_final A_initial au_q0]. pose proof (proj1 (proj2 (proj2 (proj2 (proj2 (proj1 R')))))) as X. pose proof (proj1 (proj2 (proj2 (proj2 (proj2 RB))))) as Y. unfold A_initial in *. congruence.
    - specialize (V1 q0 V0). destruct si as [k' V' T' q' f']. cbn in *. exact V1.
  Qed.
  Lemma ia_insert_strings_sim ws : forall g s q0, iarep g s -> A_initial (ia_base g) = Some q0 -> In q0 (aa_V s) ->
    exists ops g', disciplined s ops /\ fst (runs IA_call g ops) = g' /\ IA_insert_strings g ws = (g', Ok tt) /\ T_inserts (ia_base g) ws = (ia_base g', Ok tt) /\ A_initial (ia_base g') = Some q0 /\ In q0 (aa_V (fst (runs ia_step s ops))).
  Proof.
    induction ws as [|w ws IH]; intros g s q0 R Q V0.
    - exists [], g. repeat (split; try assumption; try reflexivity).
    - destruct (ia_insert_string_sim g s q0 w R Q V0) as (ops1 & g1 & D1 & G1 & E1 & B1 & Q1 & V1). destruct (iarep_runs ops1 g s R D1) as [R1 _]. rewrite G1 in R1.
      destruct (IH g1 _ q0 R1 Q1 V1) as (ops2 & g2 & D2 & G2 & E2 & B2 & Q2 & V2).
      exists (ops1 ++ ops2), g2. split; [apply disciplined_app; assumption|]. split; [rewrite runs_app, G1; exact G2|]. unfold IA_insert_strings, T_inserts in *. cbn [foreach].
      rewrite <- (insert_string_trie _ _ _ Q), E1, B1. split; [exact E2|]. split; [exact B2|]. split; [exact Q2|]. rewrite runs_app. exact V2.
  Qed.
End P.
