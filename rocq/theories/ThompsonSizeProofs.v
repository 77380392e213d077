(** Proofs for C134. *)
From Coq Require Import String Permutation.
From Verif Require Import Str Graph Automaton Nfa NfaSpec Thompson ThompsonSpec ThompsonProofs ThompsonProofs3 ThompsonProofs4 ThompsonProofs5 ShuntingYard SYSpec SYProofs Regexp RegexpSpec RegexpProofs RegexpProofs2 RegexpProofs3 ThompsonSizeSpec Base BaseProofs.
Open Scope string_scope.
Open Scope nat_scope.
Open Scope list_scope.

Section S.
  Context {A : Type} `{EqDec A}.
  Variable eps : A.
  Notation frag := (nfa A * nat * nat)%type.
  Notation last x := (nf_last (fst (fst x))).

  Lemma last_iv (g2 : nfa A) qs : forall g1 m, NoDup qs -> (forall q, In q qs -> dget m q = None) ->
    nf_last (fst (insert_vertices g2 qs g1 m)) = nf_last g1 + length qs.
  Proof.
    induction qs as [|q qs IH]; intros g1 m ND M; cbn [insert_vertices length]; [cbn; lia|]. inversion ND as [|? ? NI ND']. subst.
    unfold dmem. rewrite (M q (or_introl eq_refl)). unfold add_vertex. cbv beta iota. rewrite IH; [|exact ND'|].
    - destruct (N_is_final g2 q); cbn; lia.
    - intros p Ip. rewrite dget_dset_other; [apply M; right; exact Ip|]. intros ->. contradiction.
  Qed.
  Lemma last_ie m es : forall g1 g' : nfa A, insert_edges es g1 m = Ok g' -> nf_last g' = nf_last g1.
  Proof.
    induction es as [|e es IH]; intros g1 g' E; cbn [insert_edges] in E; [injection E as <-; reflexivity|].
    destruct (dget m (source e)) as [q|]; [|discriminate]. destruct (dget m (target e)) as [r|]; [|discriminate]. rewrite (IH _ _ E). reflexivity.
  Qed.
  Lemma last_ia (g1 g2 g' : nfa A) d : N_vertices g2 = seq 0 (nf_last g2) -> insert_automaton g1 g2 = Ok (g', d) -> nf_last g' = nf_last g1 + nf_last g2.
  Proof.
    intros N E. unfold insert_automaton in E. pose proof (last_iv g2 (N_vertices g2) g1 []) as X. destruct (insert_vertices g2 (N_vertices g2) g1 []) as [ga m].
    destruct (insert_edges (N_edges g2) ga m) as [gb|e] eqn:Eb; [|discriminate]. injection E as <- <-. rewrite (last_ie _ _ _ _ Eb).
    cbn [fst] in X. rewrite X, N, seq_length; [reflexivity|rewrite N; apply seq_NoDup|reflexivity].
  Qed.
  Lemma last_cat (x1 x2 x : frag) : numbered x2 -> concatenation x1 x2 = Ok x -> last x = last x1 + last x2.
  Proof.
    destruct x1 as [[g q0] f], x2 as [[g2 q02] f2]. intros (N & _ & _) E. cbn [concatenation] in E. destruct (insert_automaton g g2) as [[ga d]|] eqn:Ea; [|discriminate].
    apply (last_ia _ _ _ _ N) in Ea. cbn [rbind] in E. destruct (lookup d q02) as [r|]; [|discriminate]. cbn [rbind] in E. destruct (lookup d f2) as [f'|]; [|discriminate].
    injection E as <-. exact Ea.
  Qed.
  Lemma last_alt (x1 x2 x : frag) : numbered x2 -> alternation x1 x2 = Ok x -> last x = last x1 + last x2 + 2.
  Proof.
    destruct x1 as [[g q0] f], x2 as [[g2 q02] f2]. intros (N & _ & _) E. cbn [alternation] in E. destruct (insert_automaton g g2) as [[ga d]|] eqn:Ea; [|discriminate].
    apply (last_ia _ _ _ _ N) in Ea. cbn [rbind add_vertex] in E. destruct (lookup d q02) as [r|]; [|discriminate]. cbn [rbind add_vertex] in E. destruct (lookup d f2) as [f'|]; [|discriminate].
    injection E as <-. cbn [fst] in *. rewrite <- Ea. change (S (S (nf_last ga)) = nf_last ga + 2). lia.
  Qed.
  Lemma last_star (x : frag) : last (zero_or_more x) = last x + 2.
  Proof. destruct x as [[g q0] f]. change (S (S (nf_last g)) = nf_last g + 2). lia. Qed.
  Lemma last_plus (x : frag) : last (one_or_more x) = last x + 2.
  Proof. destruct x as [[g q0] f]. change (S (S (nf_last g)) = nf_last g + 2). lia. Qed.
  Lemma last_opt (x : frag) : last (zero_or_one x) = last x.
  Proof. destruct x as [[g q0] f]. reflexivity. Qed.
  Lemma last_bracket chars : last (bracket eps chars) = 2.
  Proof.
    unfold bracket. cbn [fst]. assert (X : forall g : nfa A, nf_last (fold_left (fun g a => add_edge g 0 1 a) chars g) = nf_last g).
    { induction chars as [|c cs IH]; intros g; cbn [fold_left]; [reflexivity|]. rewrite IH. reflexivity. }
    rewrite X. reflexivity.
  Qed.
  Lemma last_rep_loop ori k : numbered ori -> forall x x', repetition_loop k ori x = Ok x' -> last x' = last x + k * last ori.
  Proof.
    intros N. induction k as [|k IH]; intros [[g q0] f] x' E; cbn [repetition_loop] in E; [injection E as <-; cbn; lia|].
    destruct (concatenation (N_set_final g f false, q0, f) ori) as [x1|] eqn:Ec; [|discriminate]. cbn [rbind] in E. apply (last_cat _ _ _ N) in Ec. apply IH in E.
    rewrite E, Ec. cbn [fst]. change (nf_last (N_set_final g f false)) with (nf_last g). lia.
  Qed.
  Lemma last_rep (x : frag) m x' : numbered x -> 1 <= m -> repetition eps x m = Ok x' -> last x' = m * last x.
  Proof. intros N Hm E. destruct m as [|m]; [lia|]. cbn [repetition] in E. rewrite (last_rep_loop x m N _ _ E). lia. Qed.
  Lemma last_range_loop ori k : numbered ori -> forall x fs x' fs', range_loop k ori x fs = Ok (x', fs') -> last x' = last x + k * last ori.
  Proof.
    intros N. induction k as [|k IH]; intros x fs x' fs' E; cbn [range_loop] in E; [injection E as <- <-; lia|].
    destruct (concatenation x ori) as [x1|] eqn:Ec; [|discriminate]. cbn [rbind] in E. apply (last_cat _ _ _ N) in Ec. apply IH in E. rewrite E, Ec. lia.
  Qed.
  Lemma last_jumps f e fs : forall g : nfa A, nf_last (fold_left (fun nfa p => if p =? f then nfa else add_edge nfa p f e) fs g) = nf_last g.
  Proof. induction fs as [|p fs IH]; intros g; cbn [fold_left]; [reflexivity|]. rewrite IH. destruct (p =? f); reflexivity. Qed.

  (** the sizes of repetition_range *)
  Definition range_size (s m : nat) (n : option nat) : nat :=
    match m, n with
    | 0, Some 1 => s
    | 0, Some n => 1 + n * s
    | _, Some n => n * s
    | m, None => Nat.max 1 m * s + 2
    end.
  Lemma last_range ord (x : frag) m n x' : numbered x -> repetition_range eps ord x m n = Ok x' -> last x' = range_size (last x) m n.
  Proof.
    intros N E. destruct x as [[g q0] f].
    assert (Hb : forall k, (m, k) <> (0, 1) -> n = Some k -> last x' = (if m =? 0 then 1 else 0) + k * nf_last g).
    { intros k H1 ->.
      assert (Ek' : (if m <=? k then rbind (repetition eps (g, q0, f) m) (fun '(nfa, _, f0) =>
          rbind (range_loop (k - m) (g, q0, f) (nfa, q0, f0) [f0]) (fun '((nfa, q0, f), final_states) =>
          Ok (fold_left (fun nfa0 pred_f => if pred_f =? f then nfa0 else add_edge nfa0 pred_f f (nf_eps nfa)) (ord 0 final_states) nfa, q0, f))) else Raise AssertionError) = Ok x').
      { rewrite <- E. destruct m as [|m], k as [|[|k]]; try reflexivity; try congruence; destruct m; reflexivity. }
      clear E. destruct (Nat.leb_spec m k) as [Hk|]; [|discriminate].
      destruct (repetition eps (g, q0, f) m) as [[[g1 q1] f1]|] eqn:E1; [|discriminate]. cbn [rbind] in Ek'.
      destruct (range_loop (k - m) (g, q0, f) (g1, q0, f1) [f1]) as [[[[g2 q2] f2] fs]|] eqn:E2; [|discriminate]. cbn [rbind] in Ek'. injection Ek' as <-.
      apply (last_range_loop _ _ N) in E2. cbn [fst] in *. rewrite last_jumps, E2. destruct m as [|m].
      - cbn [repetition] in E1. injection E1 as <- <- <-. cbn [Nat.eqb]. rewrite Nat.sub_0_r. reflexivity.
      - apply last_rep in E1; [|exact N|lia]. cbn [fst] in E1. rewrite E1. cbn [Nat.eqb Nat.add]. rewrite <- Nat.mul_add_distr_r. f_equal. lia. }
    cbn [fst]. destruct n as [k|].
    - destruct m as [|m].
      + destruct k as [|[|k]]; [apply (Hb 0); congruence| |apply (Hb (S (S k))); congruence]. cbn [repetition_range] in E. injection E as <-. reflexivity.
      + rewrite (Hb k); [reflexivity|congruence|reflexivity].
    - destruct m as [|[|m]]; cbn [repetition_range] in E.
      + assert (x' = zero_or_more (g, q0, f)) as -> by (injection E; auto). rewrite last_star. cbn [range_size Nat.max fst]. lia.
      + assert (x' = one_or_more (g, q0, f)) as -> by (injection E; auto). rewrite last_plus. cbn [range_size Nat.max fst]. lia.
      + destruct (repetition eps (g, q0, f) (S (S m) - 1)) as [x1|] eqn:E1; [|discriminate]. cbn [rbind] in E. apply last_rep in E1; [|exact N|lia].
        apply last_cat in E; [|apply num_plus; split; apply N]. rewrite E, E1, last_plus. cbn [fst range_size]. replace (Nat.max 1 (S (S m))) with (S (S m)) by lia. replace (S (S m) - 1) with (S m) by lia. lia.
  Qed.

  Lemma good_opt (x : frag) : good eps x -> good eps (zero_or_one x).
  Proof. intros G. destruct (sem_good eps x G) as (Q & F & B & S). apply (sem_opt eps x _ _ _ _ S). Qed.
  Lemma cat_good (x1 x2 : frag) : good eps x1 -> good eps x2 -> numbered x1 -> numbered x2 ->
    exists x, concatenation x1 x2 = Ok x /\ good eps x /\ numbered x /\ last x = last x1 + last x2 /\ snd (fst x) = snd (fst x1).
  Proof.
    intros G1 G2 N1 N2. destruct (sem_good eps x1 G1) as (Q & F & B & S1), (sem_good eps x2 G2) as (Q2 & F2 & B2 & S2).
    destruct (sem_cat eps x1 x2 _ _ _ _ _ _ _ _ S1 S2) as (x & E & Sx & Qx). exists x. split; [exact E|]. split; [apply Sx|]. pose proof (last_cat _ _ _ N2 E) as L.
    split; [|auto]. destruct x1 as [[g1 q1] f1], N1 as (N1 & Hq & Hf). apply num_cat in E; [|exact N1|exact Hf]. destruct x as [[g q] f], E as ([X1 X2] & X3 & X4).
    cbn [fst snd] in *. subst q. split; [exact X1|]. split; [lia|exact X2].
  Qed.
  Lemma alt_good (x1 x2 : frag) : good eps x1 -> good eps x2 -> numbered x1 -> numbered x2 ->
    exists x, alternation x1 x2 = Ok x /\ good eps x /\ numbered x /\ last x = last x1 + last x2 + 2.
  Proof.
    intros G1 G2 N1 N2. destruct (sem_good eps x1 G1) as (Q & F & B & S1), (sem_good eps x2 G2) as (Q2 & F2 & B2 & S2).
    destruct (sem_alt eps x1 x2 _ _ _ _ _ _ _ _ S1 S2) as (x & E & Sx). exists x. split; [exact E|]. split; [apply Sx|]. split; [|apply (last_alt _ _ _ N2 E)].
    apply (num_alt x1 x2); [|exact E]. destruct x1 as [[g1 q1] f1]. split; apply N1.
  Qed.
  Lemma range_good ord (x : frag) m n : valid_order ord -> good eps x -> numbered x -> match n with Some n => m <= n | None => True end ->
    (n = Some 0 -> snd (fst x) = 0) ->
    exists x', repetition_range eps ord x m n = Ok x' /\ good eps x' /\ numbered x' /\ last x' = range_size (last x) m n /\
      (snd (fst x) = 0 -> (n = None -> 2 <= m) -> snd (fst x') = 0).
  Proof.
    intros VO G N LE Hz. destruct (sem_good eps x G) as (Q & F & B & SX).
    assert (X : exists x', repetition_range eps ord x m n = Ok x' /\ good eps x' /\ (snd (fst x) = 0 -> (n = None -> 2 <= m) -> snd (fst x') = 0)).
    { destruct n as [n|].
      - destruct m as [|m].
        + destruct n as [|[|n]].
          * destruct (sem_range00 eps ord x _ _ _ _ VO SX (Hz eq_refl)) as (z & E & Sz & Qz). exists z. split; [exact E|]. split; [apply Sz|auto].
          * exists (zero_or_one x). split; [destruct x as [[? ?] ?]; reflexivity|]. split; [apply good_opt, G|]. destruct x as [[? ?] ?]. auto.
          * destruct x as [[g [|p]] f].
            -- destruct (sem_range0 eps ord _ _ _ _ _ (S (S n)) VO SX eq_refl) as (z & E & Sz & Qz); [lia|]. exists z. split; [exact E|]. split; [apply Sz|auto].
            -- destruct (range0_shift eps ord g p f (nf_last g) (S (S n)) VO G (proj1 N)) as (z & E & Gz & _); [lia|]. exists z. split; [exact E|]. split; [exact Gz|]. cbn. discriminate.
        + destruct (sem_range eps ord x _ _ _ _ (S m) n VO SX) as (z & E & Sz & Qz); [lia|exact LE|]. exists z. split; [exact E|]. split; [apply Sz|]. rewrite Qz. auto.
      - destruct m as [|[|m]].
        + exists (zero_or_more x). split; [destruct x as [[? ?] ?]; reflexivity|]. split; [apply (sem_star eps x _ _ _ _ SX)|]. intros _ X. specialize (X eq_refl). lia.
        + exists (one_or_more x). split; [destruct x as [[? ?] ?]; reflexivity|]. split; [apply (sem_plus eps x _ _ _ _ SX)|]. intros _ X. specialize (X eq_refl). lia.
        + destruct (sem_unbounded eps ord x _ _ _ _ (S (S m)) SX) as (z & E & Sz & Qz); [lia|]. exists z. split; [exact E|]. split; [apply Sz|]. rewrite Qz. auto. }
    destruct X as (x' & E & G' & Q'). exists x'. split; [exact E|]. split; [exact G'|]. split; [|split; [apply (last_range ord x m n x' N E)|exact Q']].
    destruct (Nat.eq_dec m 0) as [Em|Em]; [destruct n as [[|n]|]|].
    - subst m. specialize (Hz eq_refl). destruct (sem_range00 eps ord x _ _ _ _ VO SX Hz) as (z & E' & Sz & Qz).
      destruct x as [[g q] f]. cbn in Hz. subst q. cbn [repetition_range repetition rbind Nat.leb Nat.sub range_loop] in E.
      assert (EO : ord 0 [0] = [0]) by (apply Permutation_length_1_inv, Permutation_sym, VO). rewrite EO in E. injection E as <-. repeat split; cbn; lia.
    - apply (num_range eps ord x m (Some (S n)) x' VO G N); [congruence|exact E].
    - apply (num_range eps ord x m None x' VO G N); [congruence|exact E].
    - apply (num_range eps ord x m n x' VO G N); [congruence|exact E].
  Qed.
End S.

Section C.
  Variables (ordc : set_order char) (ordn : set_order nat) (alphabet : list char).
  Hypothesis OC : valid_order ordc.
  Hypothesis ON : valid_order ordn.
  Notation frag := (nfa char * nat * nat)%type.
  Notation push := (on_push_output ordc ordn alphabet).
  Definition sized (r : rexp) (x : frag) : Prop := good epsilon x /\ numbered x /\ nf_last (fst (fst x)) = states r.

  Lemma sized_chars chars P : ~ P epsilon -> (forall x, In x chars <-> P x) ->
    let x := bracket epsilon (ordc 0 chars) in good epsilon x /\ numbered x /\ nf_last (fst (fst x)) = 2.
  Proof. intros NP HP. split; [apply (sem_chars ordc OC chars P NP HP)|]. split; [apply num_bracket|apply last_bracket]. Qed.

  Lemma postfix_sized r : well_formed alphabet r -> zero_repeats_ok r = true ->
    exists x, sized r x /\ (starts0 r = true -> snd (fst x) = 0) /\ forall nfas, pushes push nfas (postfix (tree_re r)) = Ok (x :: nfas).
  Proof.
    induction r as [c|neg l|c|a IHa b IHb|a IHa b IHb|x IH|x IH|x IH|x IH b|x IH]; intros W Z; cbn [well_formed tree_re postfix zero_repeats_ok starts0] in *.
    - destruct W as (N & NE). exists (literal epsilon c). split; [split; [apply (sem_literal epsilon c NE)|split; [repeat split; cbn; lia|reflexivity]]|]. split; [reflexivity|].
      intros nfas. cbn [pushes]. rewrite (push_char ordc ordn alphabet c nfas N). reflexivity.
    - destruct W as (OK & _ & NE). destruct (parse_bracket_class alphabet neg l OK) as (chars & P & X). exists (bracket epsilon (ordc 0 chars)).
      split; [exact (sized_chars chars _ NE X)|]. split; [reflexivity|]. intros nfas. cbn [pushes]. rewrite (push_class ordc ordn alphabet neg l nfas chars P). reflexivity.
    - destruct W as (I & NE). destruct (escaped_spec alphabet c I) as (chars & P & X). exists (bracket epsilon (ordc 0 chars)).
      split; [exact (sized_chars chars _ NE X)|]. split; [reflexivity|]. intros nfas. cbn [pushes]. rewrite (push_esc ordc ordn alphabet c nfas chars P). reflexivity.
    - destruct W as (Wa & Wb & _). apply andb_true_iff in Z. destruct Z as [Za Zb]. destruct (IHa Wa Za) as (xa & (Ga & Na & La) & Qa & Pa), (IHb Wb Zb) as (xb & (Gb & Nb & Lb) & Qb & Pb).
      destruct (cat_good epsilon xa xb Ga Gb Na Nb) as (x & E & G & N & L & Q). exists x. split; [split; [exact G|]; split; [exact N|]; cbn [states]; congruence|].
      split; [intros S0; rewrite Q; apply Qa, S0|]. intros nfas. rewrite pushes_app, Pa. cbn [rbind]. rewrite pushes_app, Pb. cbn [rbind pushes]. rewrite (push_dot ordc ordn alphabet xa xb nfas x E). reflexivity.
    - destruct W as (Wa & Wb & _). apply andb_true_iff in Z. destruct Z as [Za Zb]. destruct (IHa Wa Za) as (xa & (Ga & Na & La) & Qa & Pa), (IHb Wb Zb) as (xb & (Gb & Nb & Lb) & Qb & Pb).
      destruct (alt_good epsilon xa xb Ga Gb Na Nb) as (x & E & G & N & L). exists x. split; [split; [exact G|]; split; [exact N|]; cbn [states]; congruence|].
      split; [discriminate|]. intros nfas. rewrite pushes_app, Pa. cbn [rbind]. rewrite pushes_app, Pb. cbn [rbind pushes]. rewrite (push_bar ordc ordn alphabet xa xb nfas x E). reflexivity.
    - destruct (IH (proj1 W) Z) as (y & (G & N & L) & _ & P). exists (zero_or_more y). destruct (sem_good epsilon y G) as (Q & F & B & S).
      split; [split; [apply (sem_star epsilon y _ _ _ _ S)|split; [apply num_star; destruct y as [[? ?] ?]; split; apply N|rewrite last_star, L; reflexivity]]|]. split; [discriminate|].
      intros nfas. rewrite pushes_app, P. cbn [rbind pushes]. rewrite push_star. reflexivity.
    - destruct (IH (proj1 W) Z) as (y & (G & N & L) & _ & P). exists (one_or_more y). destruct (sem_good epsilon y G) as (Q & F & B & S).
      split; [split; [apply (sem_plus epsilon y _ _ _ _ S)|split; [apply num_plus; destruct y as [[? ?] ?]; split; apply N|rewrite last_plus, L; reflexivity]]|]. split; [discriminate|].
      intros nfas. rewrite pushes_app, P. cbn [rbind pushes]. rewrite push_plus. reflexivity.
    - destruct (IH (proj1 W) Z) as (y & (G & N & L) & Q0 & P). exists (zero_or_one y).
      split; [split; [apply good_opt, G|split; [apply num_opt, N|rewrite last_opt, L; reflexivity]]|]. split; [intros S0; rewrite q0_opt; apply Q0, S0|].
      intros nfas. rewrite pushes_app, P. cbn [rbind pushes]. rewrite push_opt. reflexivity.
    - destruct W as (W & _ & OK). apply andb_true_iff in Z. destruct Z as [Z Z0]. destruct (IH W Z) as (y & (G & N & L) & Q0 & P).
      destruct (range_good epsilon ordn y (bmin b) (bmax b) ON G N) as (z & E & Gz & Nz & Lz & Qz).
      { destruct b; cbn in *; [lia|exact I|apply OK]. }
      { intros E. rewrite E in Z0. apply Q0, Z0. }
      exists z. split; [split; [exact Gz|]; split; [exact Nz|]; rewrite Lz, L; cbn [states]; unfold range_size; destruct (bmin b), (bmax b) as [[|[|k]]|]; reflexivity|]. split.
      + destruct (bmin b) as [|[|m]], (bmax b) as [k|]; intros S0; try discriminate S0; apply Qz; (exact (Q0 S0) || (intros; lia) || discriminate).
      + intros nfas. rewrite pushes_app, P. cbn [rbind pushes]. rewrite (push_bounds ordc ordn alphabet b y nfas z OK E). reflexivity.
    - apply (IH W Z).
  Qed.

  Lemma show_sized r : well_formed alphabet r -> zero_repeats_ok r = true -> exists x, thompson_compile_nfa ordc ordn alphabet (show r) = Ok x /\ sized r x.
  Proof.
    intros W Z. destruct (postfix_sized r W Z) as (x & Sx & _ & P). exists x. split; [|exact Sx].
    assert (X : shunting_yard_postfix (lit "(") (lit ")") map_operators_re push (tokenizer_re (show r)) [] = Ok [x]).
    { rewrite (tokenizer_show alphabet r W). rewrite (shunting_yard_tree (lit "(") (lit ")") map_operators_re); [apply P|cbv; intuition discriminate|discriminate|].
      apply (tree_re_fits alphabet r W). }
    unfold thompson_compile_nfa. destruct (show r) eqn:E; [|rewrite X; reflexivity].
    cbn in X. discriminate.
  Qed.
End C.

Lemma states_show r : without_bounds r = true -> states r <= 2 * List.length (show r).
Proof.
  induction r as [c|neg l|c|a IHa b IHb|a IHa b IHb|x IH|x IH|x IH|x IH b|x IH]; cbn [without_bounds states show]; intros Z;
    try (apply andb_true_iff in Z; destruct Z as [Za Zb]; specialize (IHa Za); specialize (IHb Zb)); try (specialize (IH Z)); try discriminate;
    unfold class_text; rewrite ?app_length; cbn [lit List.length String.list_ascii_of_string map]; try lia; cbn; lia.
Qed.
