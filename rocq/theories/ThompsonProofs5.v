(** Proofs for C27: repetition_range with the bounds (0, n) when the initial state of the argument is not 0. *)
From Coq Require Import Permutation.
From Verif Require Import Base BaseProofs Graph Nfa NfaSpec NfaProofs Thompson ThompsonSpec ThompsonProofs ThompsonProofs2 ThompsonProofs3 ThompsonProofs4.

Section P.
  Context {A : Type} `{EqDec A}.
  Variable eps : A.
  Notation frag := (nfa A * nat * nat)%type.
  Notation pre := (pre eps).
  Notation good := (good eps).
  Notation lg := (lg eps).
  Notation V := N_vertices.

  (** ** the initial states play no role in a concatenation *)
  Lemma insert_vertices_I (g2 : nfa A) I qs : forall g1 m, insert_vertices g2 qs (N_set_initials g1 I) m =
    (N_set_initials (fst (insert_vertices g2 qs g1 m)) I, snd (insert_vertices g2 qs g1 m)).
  Proof.
    induction qs as [|q qs IH]; intros g1 m; cbn [insert_vertices]; [reflexivity|]. destruct (dmem m q); [apply IH|].
    unfold add_vertex. cbv beta iota.
    replace (if N_is_final g2 q then N_set_final (fst (N_add_vertex (N_set_initials g1 I))) (nf_last (N_set_initials g1 I)) true else fst (N_add_vertex (N_set_initials g1 I)))
      with (N_set_initials (if N_is_final g2 q then N_set_final (fst (N_add_vertex g1)) (nf_last g1) true else fst (N_add_vertex g1)) I)
      by (destruct (N_is_final g2 q); reflexivity).
    change (nf_last (N_set_initials g1 I)) with (nf_last g1). apply IH.
  Qed.
  Lemma insert_edges_I I m es : forall g1 : nfa A, insert_edges es (N_set_initials g1 I) m = rbind (insert_edges es g1 m) (fun g' => Ok (N_set_initials g' I)).
  Proof.
    induction es as [|e es IH]; intros g1; cbn [insert_edges]; [reflexivity|]. destruct (dget m (source e)) as [q|], (dget m (target e)) as [r|]; try reflexivity.
    exact (IH (add_edge g1 q r (N_label e))).
  Qed.
  Lemma insert_automaton_I I (g1 g2 : nfa A) : insert_automaton (N_set_initials g1 I) g2 = rbind (insert_automaton g1 g2) (fun '(g', d) => Ok (N_set_initials g' I, d)).
  Proof.
    unfold insert_automaton. rewrite insert_vertices_I. destruct (insert_vertices g2 (V g2) g1 []) as [ga d]. cbn [fst snd].
    rewrite insert_edges_I. destruct (insert_edges (N_edges g2) ga d) as [g'|e]; reflexivity.
  Qed.
  Lemma concatenation_I I (g : nfa A) q q' f x2 : concatenation (N_set_initials g I, q', f) x2 =
    rbind (concatenation (g, q, f) x2) (fun '(g', _, f') => Ok (N_set_initials g' [q'], q', f')).
  Proof.
    destruct x2 as [[g2 q02] f2]. cbn [concatenation]. rewrite insert_automaton_I. destruct (insert_automaton g g2) as [[g' d]|e]; [|reflexivity]. cbn [rbind].
    destruct (lookup d q02) as [r|e]; [|reflexivity]. cbn [rbind]. destruct (lookup d f2) as [f'|e]; reflexivity.
  Qed.
  Lemma range_loop_I n ori q q' : forall (g : nfa A) f fs, range_loop n ori (N_set_initials g [q'], q', f) fs =
    rbind (range_loop n ori (g, q, f) fs) (fun '((g', _, f'), fs') => Ok ((N_set_initials g' [q'], q', f'), fs')).
  Proof.
    induction n as [|n IH]; intros g f fs; cbn [range_loop]; [reflexivity|]. rewrite (concatenation_I [q'] g q q').
    assert (Cq : match concatenation (g, q, f) ori with Ok (_, q1, _) => q1 = q | _ => True end).
    { destruct ori as [[g2 q02] f2]. cbn [concatenation]. destruct (insert_automaton g g2) as [[g' d]|e]; [|exact I]. cbn [rbind].
      destruct (lookup d q02) as [r|e]; [|exact I]. cbn [rbind]. destruct (lookup d f2) as [f'|e]; [reflexivity|exact I]. }
    destruct (concatenation (g, q, f) ori) as [[[g' q1] f']|e]; [|reflexivity]. subst q1. cbn [rbind snd]. apply IH.
  Qed.

  Lemma jumps_I I f e fs : forall g : nfa A, fold_left (fun nfa p => if p =? f then nfa else add_edge nfa p f e) fs (N_set_initials g I) =
    N_set_initials (fold_left (fun nfa p => if p =? f then nfa else add_edge nfa p f e) fs g) I.
  Proof. induction fs as [|p fs IH]; intros g; cbn [fold_left]; [reflexivity|]. destruct (p =? f); [apply IH|]. exact (IH (add_edge g p f e)). Qed.

  Lemma range0_shift ord (g : nfa A) p f k n : valid_order ord -> good (g, S p, f) -> V g = seq 0 k -> 2 <= n ->
    exists x', repetition_range eps ord (g, S p, f) 0 (Some n) = Ok x' /\ good x' /\
      forall w, L eps x' w <-> lcat (lg g p f) (lrange (lg g (S p) f) 0 (Some (n - 1))) w.
  Proof.
    intros VO G Vg Hn.
    set (u := N_set_final (N_init 1 [] eps) 0 true).
    set (gg := fun i : nat => if i =? 0 then u else g). set (qq := fun i : nat => if i =? 0 then 0 else S p). set (ff := fun i : nat => if i =? 0 then 0 else f).
    assert (GG : forall i, good (gg i, qq i, ff i)) by (intros [|i]; [exact (unit_good eps)|exact G]).
    assert (Ori : forall i, (gg (S i), qq (S i), ff (S i)) = (g, S p, f)) by reflexivity.
    destruct (range_loop_ok eps gg qq ff GG (g, S p, f) Ori n 0 _ _ 0 [0] (chain_0 eps gg qq ff GG)) as (g2 & mm & fs & E2 & C2 & F2 & M2 & HF & HN).
    { reflexivity. }
    { lia. }
    { intros v. cbn. split; [intros [<-|[]]; exists 0; split; [lia|reflexivity]|]. intros (i & Hi & ->). left. replace i with 0 by lia. reflexivity. }
    cbn [Nat.add] in *.
    destruct (range_end eps gg qq ff GG ord n 0 mm g2 fs VO C2 F2 (Nat.le_0_l n) HF) as [G3 J].
    set (g3 := fold_left (fun (nfa : nfa A) (pred_f : nat) => if pred_f =? mm n (ff n) then nfa else add_edge nfa pred_f (mm n (ff n)) (nf_eps g2)) (ord 0 fs) g2) in *.
    assert (Fn : ff n = f) by (destruct n; [lia|reflexivity]). assert (Gn : gg n = g) by (destruct n; [lia|reflexivity]).
    assert (Iq : In (S p) (V g)) by apply G. assert (Hp : S p < k) by (rewrite Vg in Iq; apply in_seq in Iq; lia).
    assert (Ip : In p (V g)) by (rewrite Vg; apply in_seq; lia).
    assert (M1 : mm 1 p = S p) by exact (HN k p ltac:(lia) Vg ltac:(lia)).
    assert (ER : repetition_range eps ord (g, S p, f) 0 (Some n) = Ok (N_set_initials g3 [S p], S p, mm n (ff n))).
    { transitivity (rbind (range_loop n (g, S p, f) (u, S p, 0) [0]) (fun '((nfa, q0, f), final_states) =>
          Ok (fold_left (fun nfa0 pred_f => if pred_f =? f then nfa0 else add_edge nfa0 pred_f f (nf_eps nfa)) (ord 0 final_states) nfa, q0, f))).
      { destruct n as [|[|n]]; [lia|lia|]. reflexivity. }
      assert (E2' : range_loop n (g, S p, f) (u, 0, 0) [0] = Ok ((g2, mm 0 0, mm n (ff n)), fs)) by exact E2.
      destruct n as [|n]; [lia|]. cbn [range_loop] in E2' |- *.
      pose proof (concatenation_I [0] u 0 (S p) 0 (g, S p, f)) as Ec. change (N_set_initials u [0]) with u in Ec. rewrite Ec. clear Ec.
      destruct (concatenation_desc eps u 0 0 g (S p) f (proj1 (unit_good eps)) G) as (gc & mc & Ec & _). rewrite Ec in *. cbn [rbind snd] in *.
      rewrite (range_loop_I n (g, S p, f) 0 (S p)), E2'. cbn [rbind]. change (nf_eps (N_set_initials g2 [S p])) with (nf_eps g2). rewrite jumps_I. reflexivity. }
    exists (N_set_initials g3 [S p], S p, mm n (ff n)). split; [exact ER|].
    assert (LS : forall j i w, lseq eps gg qq ff (S i) j w <-> lpow (lg g (S p) f) j w).
    { induction j as [|j IH]; intros i v; cbn [lseq lpow]; [reflexivity|]. apply lcat_ext; [reflexivity|apply IH]. }
    split.
    - destruct G3 as [[W V0 T0 I0 Q0 F0 PF0 E0] F3]. split; [|exact F3]. constructor; auto.
      change (In (S p) (V g3)). destruct (jumps (nf_eps g2) (mm n (ff n)) (ord 0 fs) g2 (p_wf _ _ _ _ (c_pre _ _ _ _ _ _ _ C2))) as (_ & _ & V' & _).
      { intros v X. apply (Permutation_in _ (VO 0 fs)) in X. apply HF in X. destruct X as (i & Hi & ->). apply (c_V _ _ _ _ _ _ _ C2). exists i, (ff i).
        split; [lia|]. split; [apply (GG i)|reflexivity]. }
      fold g3 in V'. rewrite V'. apply (c_V _ _ _ _ _ _ _ C2). exists 1, p. split; [lia|]. split; [exact Ip|congruence].
    - intros w. change (lg g3 (S p) (mm n (ff n)) w <-> lcat (lg g p f) (lrange (lg g (S p) f) 0 (Some (n - 1))) w).
      replace (lg g3 (S p) (mm n (ff n)) w) with (lg g3 (mm 1 p) (mm n (ff n)) w) by (rewrite M1; reflexivity).
      etransitivity; [exact (chain_from eps gg qq ff GG n 0 mm g2 g3 C2 (Nat.le_0_l n) J 1 p w ltac:(lia) Ip)|]. rewrite Gn, Fn.
      split.
      + intros (j & a & b & z & -> & X1 & X2 & X3 & Hj). apply LS in X2. destruct j as [|j].
        * cbn in X2. unfold leps in X2. subst b. exists (a ++ z), []. rewrite app_nil_r. split; [reflexivity|]. split; [eapply nrun_app; eassumption|].
          exists 0. split; [lia|]. split; [lia|]. reflexivity.
        * exists a, (b ++ z). split; [reflexivity|]. split; [exact X1|]. exists (S j). split; [lia|]. split; [lia|]. apply lpow_absorb. apply lcat_app; assumption.
      + intros (a & b & -> & X1 & j & _ & Hj & X2). exists j, a, b, []. rewrite app_nil_r. split; [reflexivity|]. split; [exact X1|]. split; [apply LS; exact X2|].
        split; [constructor|lia].
  Qed.

  (** ** the numbers of the states *)
  Definition num (g : nfa A) : Prop := V g = seq 0 (nf_last g).
  Lemma num_av g : num g -> num (fst (add_vertex g)) /\ nf_last (fst (add_vertex g)) = S (nf_last g).
  Proof.
    unfold num. intros E. split; [|reflexivity]. unfold add_vertex, N_add_vertex, N_vertices in *. cbn [fst nf_adj nf_last].
    rewrite dkeys_dset_new; [rewrite E, seq_S; reflexivity|]. rewrite E. intros X. apply in_seq in X. lia.
  Qed.
  Lemma num_ae g q r a : num g -> q < nf_last g -> num (add_edge g q r a) /\ nf_last (add_edge g q r a) = nf_last g.
  Proof.
    unfold num. intros E Hq. split; [|reflexivity]. unfold add_edge, N_add_edge, N_vertices in *. cbn [fst nf_adj nf_last nf_set_adj].
    rewrite dkeys_dset_old; [exact E|]. rewrite E. apply in_seq. lia.
  Qed.
  Lemma num_iv (g2 : nfa A) qs : forall g1 m, num g1 -> (forall q v, dget m q = Some v -> v < nf_last g1) ->
    let '(g', m') := insert_vertices g2 qs g1 m in num g' /\ nf_last g1 <= nf_last g' /\ (forall q v, dget m' q = Some v -> v < nf_last g').
  Proof.
    induction qs as [|q qs IH]; intros g1 m N M; cbn [insert_vertices]; [auto|]. destruct (dmem m q); [apply IH; assumption|].
    destruct (num_av g1 N) as [N1 L1]. unfold add_vertex in *. cbn [fst] in *. cbv beta iota.
    set (gb := if N_is_final g2 q then _ else _).
    assert (Lb : nf_last gb = S (nf_last g1)) by (unfold gb; destruct (N_is_final g2 q); exact L1).
    assert (Nb : num gb) by (unfold gb; destruct (N_is_final g2 q); exact N1).
    specialize (IH gb (dset m q (nf_last g1)) Nb). destruct (insert_vertices g2 qs gb (dset m q (nf_last g1))) as [g' m'].
    destruct IH as (X1 & X2 & X3).
    { intros p v Ev. rewrite Lb. destruct (Nat.eq_dec p q) as [->|D].
      - rewrite dget_dset_same in Ev. injection Ev as <-. lia.
      - rewrite dget_dset_other in Ev by congruence. apply M in Ev. lia. }
    split; [exact X1|]. split; [lia|exact X3].
  Qed.
  Lemma num_ie m es : forall g1 g' : nfa A, num g1 -> (forall q v, dget m q = Some v -> v < nf_last g1) ->
    insert_edges es g1 m = Ok g' -> num g' /\ nf_last g' = nf_last g1.
  Proof.
    induction es as [|e es IH]; intros g1 g' N M E; cbn [insert_edges] in E; [injection E as <-; auto|].
    destruct (dget m (source e)) as [q|] eqn:Eq; [|discriminate]. destruct (dget m (target e)) as [r|]; [|discriminate].
    destruct (num_ae g1 q r (N_label e) N (M _ _ Eq)) as [N1 L1]. rewrite <- L1 in *. apply (IH _ _ N1); [|exact E]. exact M.
  Qed.
  Lemma num_ia (g1 g2 g' : nfa A) d : num g1 -> insert_automaton g1 g2 = Ok (g', d) ->
    num g' /\ nf_last g1 <= nf_last g' /\ (forall q v, dget d q = Some v -> v < nf_last g').
  Proof.
    intros N E. unfold insert_automaton in E. pose proof (num_iv g2 (V g2) g1 [] N) as X. destruct (insert_vertices g2 (V g2) g1 []) as [ga m].
    destruct X as (X1 & X2 & X3); [discriminate|]. destruct (insert_edges (N_edges g2) ga m) as [gb|e] eqn:Eb; [|discriminate]. injection E as <- <-.
    destruct (num_ie _ _ _ _ X1 X3 Eb) as [Nb Lb]. rewrite Lb. auto.
  Qed.
  Lemma lookup_inv (d : dict nat nat) q v : lookup d q = Ok v -> dget d q = Some v.
  Proof. unfold lookup. destruct (dget d q); [intros E; injection E as <-; reflexivity|discriminate]. Qed.

  Definition num' (x : frag) : Prop := num (fst (fst x)) /\ snd x < nf_last (fst (fst x)).
  Lemma num_cat g q0 f x2 x : num g -> f < nf_last g -> concatenation (g, q0, f) x2 = Ok x -> num' x /\ snd (fst x) = q0 /\ nf_last g <= nf_last (fst (fst x)).
  Proof.
    intros N Hf E. destruct x2 as [[g2 q02] f2]. cbn [concatenation] in E. destruct (insert_automaton g g2) as [[ga d]|] eqn:Ea; [|discriminate]. cbn [rbind] in E.
    destruct (num_ia _ _ _ _ N Ea) as (Na & La & Da). destruct (lookup d q02) as [r|]; [|discriminate]. cbn [rbind] in E. destruct (lookup d f2) as [f'|] eqn:Ef; [|discriminate].
    cbn [rbind] in E. injection E as <-. apply lookup_inv, Da in Ef. destruct (num_ae ga f r (nf_eps ga) Na ltac:(lia)) as [Nb Lb].
    split; [split; [exact Nb|cbn; lia]|]. split; [reflexivity|]. cbn. lia.
  Qed.
  Lemma num_alt x1 x2 x : num' x1 -> alternation x1 x2 = Ok x -> numbered x.
  Proof.
    destruct x1 as [[g q0] f], x2 as [[g2 q02] f2]. intros [N Hf] E. cbn [fst snd] in *. cbn [alternation] in E.
    destruct (insert_automaton g g2) as [[ga d]|] eqn:Ea; [|discriminate]. cbn [rbind] in E. destruct (num_ia _ _ _ _ N Ea) as (Na & La & Da).
    destruct (num_av ga Na) as [N1 L1]. unfold add_vertex in *. cbn [fst] in *. cbv beta iota zeta in E.
    set (g1 := fst (N_add_vertex ga)) in *. clearbody g1.
    destruct (num_ae g1 (nf_last ga) q0 (nf_eps g) N1 ltac:(lia)) as [N3 L3]. set (g3 := add_edge g1 _ _ _) in *. clearbody g3.
    destruct (lookup d q02) as [r|]; [|discriminate]. cbn [rbind] in E.
    destruct (num_ae g3 (nf_last ga) r (nf_eps g) N3 ltac:(lia)) as [N4 L4]. set (g4 := add_edge g3 _ _ _) in *. clearbody g4.
    set (g5 := N_set_initials g4 [nf_last ga]) in *. assert (N5 : num g5) by exact N4. assert (L5 : nf_last g5 = nf_last g4) by reflexivity. clearbody g5.
    destruct (num_av g5 N5) as [N6 L6]. cbn [add_vertex fst] in N6, L6. set (g6 := fst (N_add_vertex g5)) in *. clearbody g6.
    destruct (num_ae g6 f (nf_last g5) (nf_eps g) N6 ltac:(lia)) as [N7 L7]. set (g7 := add_edge g6 _ _ _) in *. clearbody g7.
    destruct (lookup d f2) as [f'|] eqn:Ef; [|discriminate]. cbn [rbind] in E. injection E as <-. apply lookup_inv, Da in Ef.
    destruct (num_ae g7 f' (nf_last g5) (nf_eps g) N7 ltac:(lia)) as [N8 L8]. split; [exact N8|]. cbn. lia.
  Qed.
  Lemma num_star x : num' x -> numbered (zero_or_more x).
  Proof.
    destruct x as [[g q0] f]. intros [N Hf]. cbn [fst snd] in *. unfold zero_or_more, add_vertex. cbv beta iota zeta.
    destruct (num_av g N) as [N1 L1]. cbn [add_vertex fst] in N1, L1. set (g1 := fst (N_add_vertex g)) in *. clearbody g1.
    destruct (num_av g1 N1) as [N2 L2]. cbn [add_vertex fst] in N2, L2. set (g2 := fst (N_add_vertex g1)) in *. clearbody g2.
    destruct (num_ae g2 (nf_last g) q0 (nf_eps g) N2 ltac:(lia)) as [N3 L3]. set (g3 := add_edge g2 _ _ _) in *. clearbody g3.
    destruct (num_ae g3 f (nf_last g1) (nf_eps g) N3 ltac:(lia)) as [N4 L4]. set (g4 := add_edge g3 _ _ _) in *. clearbody g4.
    destruct (num_ae g4 (nf_last g) (nf_last g1) (nf_eps g) N4 ltac:(lia)) as [N5 L5]. set (g5 := add_edge g4 _ _ _) in *. clearbody g5.
    destruct (num_ae g5 (nf_last g1) (nf_last g) (nf_eps g) N5 ltac:(lia)) as [N6 L6]. split; [exact N6|]. cbn. lia.
  Qed.
  Lemma num_plus x : num' x -> numbered (one_or_more x).
  Proof.
    destruct x as [[g q0] f]. intros [N Hf]. cbn [fst snd] in *. unfold one_or_more, add_vertex. cbv beta iota zeta.
    destruct (num_av g N) as [N1 L1]. cbn [add_vertex fst] in N1, L1. set (g1 := fst (N_add_vertex g)) in *. clearbody g1.
    destruct (num_av g1 N1) as [N2 L2]. cbn [add_vertex fst] in N2, L2. set (g2 := fst (N_add_vertex g1)) in *. clearbody g2.
    destruct (num_ae g2 (nf_last g) q0 (nf_eps g) N2 ltac:(lia)) as [N3 L3]. set (g3 := add_edge g2 _ _ _) in *. clearbody g3.
    destruct (num_ae g3 f (nf_last g1) (nf_eps g) N3 ltac:(lia)) as [N4 L4]. set (g4 := add_edge g3 _ _ _) in *. clearbody g4.
    destruct (num_ae g4 (nf_last g1) (nf_last g) (nf_eps g) N4 ltac:(lia)) as [N6 L6]. split; [exact N6|]. cbn. lia.
  Qed.
  Lemma num_opt x : numbered x -> numbered (zero_or_one x).
  Proof. destruct x as [[g q0] f]. intros (N & Hq & Hf). destruct (num_ae g q0 f (nf_eps g) N Hq) as [N1 L1]. split; [exact N1|]. auto. Qed.
  Lemma num_rep_loop ori k : forall x x', num' x -> repetition_loop k ori x = Ok x' ->
    num' x' /\ snd (fst x') = snd (fst x) /\ nf_last (fst (fst x)) <= nf_last (fst (fst x')).
  Proof.
    induction k as [|k IH]; intros [[g q0] f] x' [N Hf] E; cbn [repetition_loop fst snd] in *; [injection E as <-; repeat split; auto|].
    destruct (concatenation (N_set_final g f false, q0, f) ori) as [x1|] eqn:Ec; [|discriminate]. cbn [rbind] in E.
    apply num_cat in Ec; [|exact N|exact Hf]. destruct Ec as (N1 & Q1 & L1). destruct (IH _ _ N1 E) as (N2 & Q2 & L2). split; [exact N2|]. split; [congruence|].
    change (nf_last (N_set_final g f false)) with (nf_last g) in L1. lia.
  Qed.
  Lemma num_rep x m x' : numbered x -> repetition eps x m = Ok x' -> numbered x'.
  Proof.
    intros N E. destruct m as [|m]; cbn [repetition] in E; [injection E as <-; split; [reflexivity|cbn; lia]|].
    destruct x as [[g q0] f], N as (N & Hq & Hf). apply num_rep_loop in E; [|split; [exact N|exact Hf]]. destruct E as ([N1 F1] & Q1 & L1).
    destruct x' as [[g' q'] f']. cbn [fst snd] in *. subst q'. split; [exact N1|]. lia.
  Qed.
  Lemma num_range_loop ori k : forall x fs x' fs', num' x -> (forall p, In p fs -> p < nf_last (fst (fst x))) -> range_loop k ori x fs = Ok (x', fs') ->
    num' x' /\ snd (fst x') = snd (fst x) /\ nf_last (fst (fst x)) <= nf_last (fst (fst x')) /\ (forall p, In p fs' -> p < nf_last (fst (fst x'))) /\
    (k = 0 \/ exists x1, concatenation x ori = Ok x1 /\ nf_last (fst (fst x1)) <= nf_last (fst (fst x'))).
  Proof.
    induction k as [|k IH]; intros [[g q0] f] fs x' fs' [N Hf] HF E; cbn [range_loop fst snd] in *; [injection E as <- <-; repeat split; auto|].
    destruct (concatenation (g, q0, f) ori) as [x1|] eqn:Ec; [|discriminate]. cbn [rbind] in E. pose proof Ec as Ec'.
    apply num_cat in Ec; [|exact N|exact Hf]. destruct Ec as (N1 & Q1 & L1).
    destruct (IH x1 (sadd (snd x1) fs) x' fs' N1) as (N2 & Q2 & L2 & F2 & _); [|exact E|].
    { intros p X. apply In_sadd in X. destruct X as [->|X]; [apply N1|]. apply HF in X. lia. }
    split; [exact N2|]. split; [congruence|]. split; [lia|]. split; [exact F2|]. right. exists x1. split; [reflexivity|lia].
  Qed.
  Lemma num_jumps f e fs : forall g : nfa A, num g -> (forall p, In p fs -> p < nf_last g) ->
    let g' := fold_left (fun nfa p => if p =? f then nfa else add_edge nfa p f e) fs g in num g' /\ nf_last g' = nf_last g.
  Proof.
    induction fs as [|p fs IH]; intros g N HF; cbn [fold_left]; [auto|]. destruct (p =? f).
    - apply IH; [exact N|]. intros q X. apply HF. right. exact X.
    - destruct (num_ae g p f e N (HF p (or_introl eq_refl))) as [N1 L1]. destruct (IH (add_edge g p f e) N1) as [N2 L2].
      { intros q X. rewrite L1. apply HF. right. exact X. }
      split; [exact N2|congruence].
  Qed.

  (** the vertices of the copy *)
  Lemma num_range ord x m n x' : valid_order ord -> good x -> numbered x -> (m, n) <> (0, Some 0) -> repetition_range eps ord x m n = Ok x' -> numbered x'.
  Proof.
    intros VO G N Hmn E. assert (N' : num' x) by (destruct x as [[g q0] f]; split; apply N).
    assert (Hu : forall m, 2 <= m -> repetition_range eps ord x m None = Ok x' -> numbered x').
    { intros k Hk Ek. destruct x as [[g q0] f]. destruct k as [|[|k]]; [lia|lia|]. cbn [repetition_range] in Ek.
      destruct (repetition eps (g, q0, f) (S (S k) - 1)) as [x1|] eqn:E1; [|discriminate]. cbn [rbind] in Ek. apply num_rep in E1; [|exact N].
      destruct x1 as [[g1 q1] f1], E1 as (N1 & Hq1 & Hf1). apply num_cat in Ek; [|exact N1|exact Hf1]. destruct Ek as ([N2 F2] & Q2 & L2).
      destruct x' as [[g' q'] f']. cbn [fst snd] in *. subst q'. split; [exact N2|]. lia. }
    assert (Hb : forall k, (m, k) <> (0, 0) -> (m, k) <> (0, 1) -> repetition_range eps ord x m (Some k) = Ok x' -> numbered x').
    { intros k H0 H1 Ek. destruct x as [[g q0] f].
      assert (Ek' : (if m <=? k then rbind (repetition eps (g, q0, f) m) (fun '(nfa, _, f0) =>
          rbind (range_loop (k - m) (g, q0, f) (nfa, q0, f0) [f0]) (fun '((nfa, q0, f), final_states) =>
          Ok (fold_left (fun nfa0 pred_f => if pred_f =? f then nfa0 else add_edge nfa0 pred_f f (nf_eps nfa)) (ord 0 final_states) nfa, q0, f))) else Raise AssertionError) = Ok x').
      { rewrite <- Ek. destruct m as [|m], k as [|[|k]]; try reflexivity; try congruence; destruct m; reflexivity. }
      clear Ek. destruct (Nat.leb_spec m k) as [Hk|]; [|discriminate].
      destruct (repetition eps (g, q0, f) m) as [[[g1 q1] f1]|] eqn:E1; [|discriminate]. cbn [rbind] in Ek'. pose proof E1 as E1'. apply num_rep in E1; [|exact N].
      destruct E1 as (N1 & Hq1 & Hf1).
      destruct (range_loop (k - m) (g, q0, f) (g1, q0, f1) [f1]) as [[[[g2 q2] f2] fs]|] eqn:E2; [|discriminate]. cbn [rbind] in Ek'. injection Ek' as <-.
      apply num_range_loop in E2; [|split; [exact N1|exact Hf1]|cbn; intros p [<-|[]]; exact Hf1]. destruct E2 as ([N2 F2] & Q2 & L2 & HF & Hx). cbn [fst snd] in *. subst q2.
      destruct (num_jumps f2 (nf_eps g2) (ord 0 fs) g2 N2) as [N3 L3].
      { intros p X. apply HF. apply (Permutation_in _ (VO 0 fs)). exact X. }
      split; [exact N3|]. rewrite L3. split; [|exact F2]. destruct m as [|m].
      - destruct Hx as [Hx|(x1 & Ec & Lx)]; [destruct k; [congruence|lia]|]. cbn [repetition] in E1'. injection E1' as <- <- <-.
        pose proof (concatenation_I [0] (N_set_final (N_init 1 [] eps) 0 true) 0 q0 0 (g, q0, f)) as Ei. change (N_set_initials (N_set_final (N_init 1 [] eps) 0 true) [0]) with (N_set_final (N_init 1 [] eps) 0 true) in Ei.
        rewrite Ec in Ei. destruct (concatenation_desc eps (N_set_final (N_init 1 [] eps) 0 true) 0 0 g q0 f (proj1 (unit_good eps)) G) as (gc & mc & Ed & [Gc _] & _ & Vc & _ & _ & _ & Mc & _).
        rewrite Ed in Ei. cbn [rbind] in Ei. injection Ei as ->. cbn [fst] in Lx. change (nf_last (N_set_initials gc [q0])) with (nf_last gc) in Lx.
        assert (Y : mc q0 < nf_last gc) by (apply Gc, Vc; right; exists q0; split; [apply G|reflexivity]).
        destruct N as (N & Hq & Hf). rewrite (Mc _ q0 N Hq) in Y. cbn in Y. lia.
      - cbn [repetition] in E1'. apply num_rep_loop in E1'; [|exact N']. destruct E1' as (_ & _ & L1). destruct N as (_ & Hq & _). cbn [fst] in L1. lia. }
    destruct n as [n|].
    - destruct (Nat.eq_dec m 0) as [->|Hm]; [destruct (Nat.eq_dec n 1) as [->|Hn]|].
      + destruct x as [[g q0] f]. cbn [repetition_range] in E. injection E as <-. exact (num_opt (g, q0, f) N).
      + apply (Hb n); congruence.
      + apply (Hb n); congruence.
    - destruct m as [|[|m]].
      + destruct x as [[g q0] f]. cbn [repetition_range] in E. injection E as <-. exact (num_star (g, q0, f) N').
      + destruct x as [[g q0] f]. cbn [repetition_range] in E. injection E as <-. exact (num_plus (g, q0, f) N').
      + apply (Hu (S (S m))); [lia|exact E].
  Qed.
  Lemma num_bracket chars : numbered (bracket eps chars).
  Proof.
    unfold bracket. assert (X : forall g : nfa A, num g -> 0 < nf_last g -> let g' := fold_left (fun g a => add_edge g 0 1 a) chars g in num g' /\ nf_last g' = nf_last g).
    { induction chars as [|c cs IH]; intros g N Hg; cbn [fold_left]; [auto|]. destruct (num_ae g 0 1 c N Hg) as [N1 L1].
      destruct (IH (add_edge g 0 1 c) N1) as [N2 L2]; [lia|]. split; [exact N2|congruence]. }
    destruct (X (N_set_final (N_init 2 [] eps) 1 true) eq_refl) as [N1 L1]; [cbn; lia|]. split; [exact N1|]. rewrite L1. cbn. lia.
  Qed.
End P.
