(** Theorems C89 and C90: automaton_insert_string on any automaton, and the smallest automaton of a finite set of words. *)
From Verif Require Import Graph GraphProofs Automaton AutomatonSpec AutomatonProofs AutomatonProofs2 Trie TrieSpec TrieProofs Insert InsertProofs Revuz RevuzSpec RevuzProofs RevuzProofs2 TRevuz Hopcroft HopcroftProofs HopcroftProofs2 THopcroft MinSpec MinProofs TMin Base BaseProofs.
#[local] Arguments dkeys : simpl never.

Section A.
  Context {A : Type} {EA : EqDec A}.

  (** C89. Let g be an automaton whose initial state and whose targets of transitions are vertices, and in which no vertex to come is final. automaton_insert_string(w) reads the longest prefix of w that can be read, up to a state q;
      then the words accepted are those accepted before and the words x followed by the rest of w, for every word x leading to q. *)
  Theorem C89_insert_string n (ops : list (aop A)) q0 w : let g := fst (runs A_call (A_init n) ops) in
    A_initial g = Some q0 -> In q0 (A_vertices g) -> (forall e, In e (A_edges g) -> In (target e) (A_vertices g)) -> (forall v, A_is_final g v = true -> In v (A_vertices g)) ->
    exists g' i q, A_insert_string g w = (g', Ok tt) /\ i <= length w /\ path (A_edges g) q0 (firstn i w) q /\ (i < length w -> forall x, ~ path (A_edges g) q0 (firstn (S i) w) x) /\
      (forall u, A_accepts g' u = true <-> A_accepts g u = true \/ exists x, path (A_edges g) q0 x q /\ u = x ++ skipn i w).
  Proof.
    intros g Q V0 C F. destruct (arep_runs n ops) as [R _]. fold g in R. set (s := fst (runs aa_step (aa_init n) ops)) in R. clearbody g s.
    pose proof (proj1 (proj2 R)) as V. unfold A_vertices in *. rewrite V in *. apply (insert_language g s q0 w R Q V0).
    - intros e I. apply C, (Permutation_in _ (Permutation_sym (obs_edges g s R))), I.
    - intros v L. destruct (aa_final s v) eqn:E; [|reflexivity]. destruct R as (_ & _ & _ & _ & _ & X & LT). unfold A_is_final in F. rewrite <- (X v) in E. apply F, LT in E. lia.
  Qed.

  (** Without an initial state nothing is accepted, before or after: the empty word is ignored, and any other word raises KeyError after one
      isolated vertex was added. *)
  Theorem C89_no_initial n (ops : list (aop A)) w : let g := fst (runs A_call (A_init n) ops) in A_initial g = None ->
    exists g', A_insert_string g w = (g', match w with [] => Ok tt | _ => Raise KeyError end) /\
      (w = [] -> g' = g) /\ (w <> [] -> A_vertices g' = A_vertices g ++ [au_last g]) /\
      (forall q a, A_delta g' q a = A_delta g q a) /\ (forall u, A_accepts g u = false) /\ (forall u, A_accepts g' u = false).
  Proof.
    intros g Q. destruct (arep_runs n ops) as [R _]. fold g in R.
    pose proof (delta_add_vertex g (ex_intro _ _ R)) as D. destruct R as (AL & V & _ & _ & _ & _ & LT). clearbody g.
    assert (N : forall h : aut A, A_initial h = None -> forall u, A_accepts h u = false) by (intros h E u; unfold A_accepts; rewrite E; destruct u; reflexivity).
    unfold A_insert_string, A_delta_best_effort. rewrite Q. destruct w as [|b w].
    - exists g. split; [reflexivity|]. split; [reflexivity|]. split; [congruence|]. auto.
    - exists (fst (A_add_vertex g)). split; [reflexivity|]. split; [discriminate|]. split; [|split; [exact D|split; apply N; exact Q]].
      intros _. apply dkeys_dset_new. intros I. rewrite V in I. apply LT in I. rewrite AL in I. lia.
  Qed.

  (** An IncidenceAutomaton does the same. *)
  Theorem C89_no_initial_incidence (g : iaut A) w : A_initial (ia_base g) = None ->
    ia_base (fst (IA_insert_string g w)) = fst (A_insert_string (ia_base g) w) /\ snd (IA_insert_string g w) = match w with [] => Ok tt | _ => Raise KeyError end.
  Proof. intros Q. unfold IA_insert_string, A_insert_string, A_delta_best_effort. rewrite Q. destruct w; split; reflexivity. Qed.

  (** In particular w is accepted and nothing that was accepted is lost; and w is the only word added when one word only leads to q, for example in a tree. *)
  Corollary C89_insert_one n (ops : list (aop A)) q0 w : let g := fst (runs A_call (A_init n) ops) in
    A_initial g = Some q0 -> In q0 (A_vertices g) -> (forall e, In e (A_edges g) -> In (target e) (A_vertices g)) -> (forall v, A_is_final g v = true -> In v (A_vertices g)) ->
    exists g', A_insert_string g w = (g', Ok tt) /\ A_accepts g' w = true /\ (forall u, A_accepts g u = true -> A_accepts g' u = true) /\
      ((forall x y q, path (A_edges g) q0 x q -> path (A_edges g) q0 y q -> x = y) -> forall u, A_accepts g' u = true <-> A_accepts g u = true \/ u = w).
  Proof.
    intros g Q V0 C F. destruct (C89_insert_string n ops q0 w Q V0 C F) as (g' & i & q & E & L & P & M & H). fold g in E, P, M, H. exists g'. split; [exact E|]. split; [|split].
    - apply H. right. exists (firstn i w). split; [exact P|symmetry; apply firstn_skipn].
    - intros u X. apply H. auto.
    - intros T u. rewrite H. split; (intros [X|X]; [auto|right]).
      + destruct X as (x & Px & ->). rewrite (T _ _ _ Px P). apply firstn_skipn.
      + subst u. exists (firstn i w). split; [exact P|symmetry; apply firstn_skipn].
  Qed.

  (** C90. The automaton of a set of words: what the minimizations need *)
  Lemma words_automaton (ws : list (list A)) : ws <> [] -> exists ops g, disciplined (aa_init 1) ops /\ fst (runs IA_call (IA_init 1) ops) = g /\ IA_insert_strings (IA_init 1) ws = (g, Ok tt) /\
    A_initial (ia_base g) = Some 0 /\ In 0 (IA_vertices g) /\ acyclic (aut_arc (IA_edges g)) /\ accessible (ia_dfa g 0) /\ coaccessible (ia_dfa g 0) /\ length (IA_vertices g) <= S (length (concat ws)) /\
    (forall u, A_accepts (ia_base g) u = true <-> In u ws) /\ (forall x, (exists w, In w ws /\ is_prefix x w) -> exists v, In v (IA_vertices g) /\ path (IA_edges g) 0 x v /\ A_is_final (ia_base g) v = mem x ws).
  Proof.
    intros NE. destruct (ia_insert_strings_sim ws (IA_init 1) (aa_init 1) 0 (iarep_init 1)) as (ops & g & D & G & E & B & Q & V0); [reflexivity|left; reflexivity|].
    destruct (T_inserts_spec ws T_init (fun _ => []) shape_init T_init_final) as (g' & word & E' & S & F & AC & HW). change (ia_base (IA_init 1)) with (T_init (A:=A)) in B. rewrite B in E'. injection E' as <-.
    destruct (iarep_runs ops _ _ (iarep_init 1) D) as [R _]. rewrite G in R. pose proof (proj1 R) as RB.
    assert (PW : forall x v, path (IA_edges g) 0 x v <-> In v (IA_vertices g) /\ word v = x). { intros x v. unfold IA_edges. rewrite <- (delta_word_path _ _ RB), (shape_path _ _ S). reflexivity. }
    assert (AL : forall u, A_accepts (ia_base g) u = true <-> In u ws) by (intros u; rewrite AC, T_init_accepts; intuition discriminate).
    assert (PX : forall v, In v (IA_vertices g) -> exists w, In w ws /\ is_prefix (word v) w).
    { intros v Iv. destruct (proj1 (HW (word v))) as [(v' & _ & X)|X]; [exists v; auto| |exact X]. destruct ws as [|w ws']; [congruence|]. exists w. split; [left; reflexivity|]. rewrite <- X. exists w. reflexivity. }
    exists ops, g. split; [exact D|]. split; [exact G|]. split; [exact E|]. split; [exact Q|]. split; [apply (sh_root _ _ S)|]. split; [|split; [|split; [|split; [|split; [exact AL|]]]]].
    - assert (UP : forall n x y, upath (aut_arc (IA_edges g)) n x y -> length (word y) = n + length (word x)).
      { induction 1 as [|n x y z [a I] P IH]; [reflexivity|]. rewrite IH. apply (obs_delta_edges _ _ RB) in I. destruct (sh_edge _ _ S _ _ _ I) as (_ & _ & _ & ->). rewrite app_length. cbn. lia. }
      intros n v P. apply UP in P. lia.
    - intros v Iv. exists (word v). apply PW. auto.
    - intros v Iv. destruct (PX v Iv) as (w & Iw & y & ->). apply AL in Iw. apply (accepts_path _ _ RB) in Iw. destruct Iw as (q & r & X & P & Fr). rewrite Q in X. injection X as <-.
      exists y, r. split; [|exact Fr]. cbn. clear -P PW S RB Iv. assert (SP : forall x z p, path (A_edges (ia_base g)) p (x ++ z) r -> exists m, path (A_edges (ia_base g)) p x m /\ path (A_edges (ia_base g)) m z r).
      { induction x as [|a x IH]; intros z p X; [exists p; split; [constructor|exact X]|]. cbn in X. inversion X as [|? ? m ? ? I' P']; subst. destruct (IH _ _ P') as (m' & M1 & M2). exists m'. split; [econstructor; eassumption|exact M2]. }
      destruct (SP _ _ _ P) as (m & P1 & P2). apply PW in P1. destruct P1 as [Im Wm]. rewrite (shape_inj _ _ S v m Iv Im (eq_sym Wm)). exact P2.
    - set (all := [] :: flat_map (fun w => map (fun n => firstn (Datatypes.S n) w) (seq 0 (length w))) ws : list (list A)).
      assert (LA : length all = Datatypes.S (length (concat ws))). { unfold all. cbn. f_equal. clear. induction ws as [|w ws IH]; [reflexivity|]. cbn. rewrite !app_length, map_length, seq_length, IH. reflexivity. }
      rewrite <- LA, <- (map_length word). apply NoDup_incl_length.
      + assert (ND : NoDup (IA_vertices g)) by (unfold IA_vertices; rewrite (obs_vertices _ _ RB); apply (iarep_nodup _ _ R)).
        assert (INJ : forall u v, In u (IA_vertices g) -> In v (IA_vertices g) -> word u = word v -> u = v) by (intros; eapply shape_inj; eassumption). revert ND INJ. clear. induction (IA_vertices g) as [|v V IH]; intros ND INJ; [constructor|]. inversion ND as [|? ? NI ND']; subst. cbn. constructor.
        * intros I. apply in_map_iff in I. destruct I as (u & X & Iu). apply NI. rewrite <- (INJ u v); [exact Iu|right; exact Iu|left; reflexivity|exact X].
        * apply IH; [exact ND'|]. intros a b Ia Ib. apply INJ; right; assumption.
      + intros x I. apply in_map_iff in I. destruct I as (v & <- & Iv). destruct (PX v Iv) as (w & Iw & y & X). destruct (word v) as [|a z] eqn:W; [left; reflexivity|right]. apply in_flat_map. exists w. split; [exact Iw|].
        apply in_map_iff. exists (length z). subst w. split; [change (Datatypes.S (length z)) with (length (a :: z)); rewrite firstn_app, Nat.sub_diag, firstn_all, app_nil_r; reflexivity|]. apply in_seq. rewrite app_length. cbn. lia.
    - intros x (w & Iw & Px). assert (H : has_word (ia_base g) word x) by (apply HW; right; exists w; auto). destruct H as (v & Iv & Wv). exists v. split; [exact Iv|]. split; [apply PW; auto|].
      destruct (A_is_final (ia_base g) v) eqn:Fv; symmetry; [apply mem_spec, AL, (accepts_path _ _ RB); exists 0, v; split; [exact Q|]; split; [apply PW; auto|exact Fv]|].
      apply not_true_iff_false. rewrite mem_spec, <- AL, (accepts_path _ _ RB). intros (q & r & X & P & Fr). rewrite Q in X. injection X as <-. apply PW in P. destruct P as [Ir Wr]. assert (r = v) by (apply (shape_inj _ _ S r v Ir Iv); congruence). congruence.
  Qed.

  (** C90. Inserting a non-empty list of words in an IncidenceAutomaton of one vertex, then calling revuz_minimize: nothing raises, and the result is the smallest deterministic automaton accepting exactly these words;
      any other automaton accepting these words with as few states is the same one up to the names of the states. *)
  Theorem C90_words_revuz (ws : list (list A)) fuel ord ord_v : ws <> [] -> valid_order ord -> valid_order ord_v -> S (length (concat ws)) <= fuel ->
    exists g g' h, IA_insert_strings (IA_init 1) ws = (g, Ok tt) /\ revuz_minimize fuel ord ord_v [] g = Some (g', Ok h) /\ A_initial (ia_base g') = Some 0 /\ wf_dfa (ia_dfa g' 0) /\
      (forall u, A_accepts (ia_base g') u = true <-> In u ws) /\ (forall u, language (ia_dfa g' 0) u <-> In u ws) /\
      forall d, wf_dfa d -> (forall u, language d u <-> In u ws) ->
        length (IA_vertices g') <= length (d_states d) /\ (length (IA_vertices g') = length (d_states d) -> isomorphic (ia_dfa g' 0) d).
  Proof.
    intros NE OE OV LF. destruct (words_automaton ws NE) as (ops & g & D & G & E & Q & V0 & ACY & AC & CO & L & AL & _).
    destruct (iarep_runs ops _ _ (iarep_init 1) D) as [R _]. rewrite G in R.
    pose proof (C80_revuz_minimal 1 ops fuel ord ord_v 0 D OE OV) as H. cbv zeta in H. rewrite G in H. destruct (H Q V0 ACY AC CO ltac:(lia)) as (g' & h & E' & Q' & W' & AL' & LL & M).
    assert (LG : forall u, language (ia_dfa g 0) u <-> In u ws) by (intros u; rewrite <- (accepts_language g _ 0 u R Q); apply AL).
    exists g, g', h. split; [exact E|]. split; [exact E'|]. split; [exact Q'|]. split; [exact W'|]. split; [intros u; rewrite AL'; apply AL|]. split; [intros u; rewrite LL; apply LG|].
    intros d WD LD. apply (M d WD). intros u. rewrite LD, LG. reflexivity.
  Qed.

  (** The same with hopcroft_minimize, when some prefix of a word is not one of the words (hopcroft_minimize adds a state otherwise, C79). *)
  Theorem C90_words_hopcroft (ws : list (list A)) fuel (ord_w : set_order (list nat)) (ord_p : nat -> set_order (list nat)) (ord_a : set_order A) (ord_l : set_order (list nat)) (ord_q : list nat -> list nat) :
    valid_order ord_w -> (forall n, valid_order (ord_p n)) -> valid_order ord_a -> valid_order ord_l -> (forall B, Permutation (ord_q B) B) ->
    (exists x w, In w ws /\ is_prefix x w /\ ~ In x ws) -> S (length (concat ws)) <= fuel ->
    exists g g' q0', IA_insert_strings (IA_init 1) ws = (g, Ok tt) /\ hopcroft_minimize fuel g ord_w ord_p ord_a ord_l ord_q = Some (g', Ok tt) /\ A_initial (ia_base g') = Some q0' /\ wf_dfa (ia_dfa g' q0') /\
      (forall u, language (ia_dfa g' q0') u <-> In u ws) /\
      forall d, wf_dfa d -> (forall u, language d u <-> In u ws) ->
        length (IA_vertices g') <= length (d_states d) /\ (length (IA_vertices g') = length (d_states d) -> isomorphic (ia_dfa g' q0') d).
  Proof.
    intros OW OP OA OL OQ (x & w & Iw & Px & Nx) LF. assert (NE : ws <> []) by (intros ->; destruct Iw). destruct (words_automaton ws NE) as (ops & g & D & G & E & Q & V0 & ACY & AC & CO & L & AL & PF).
    destruct (iarep_runs ops _ _ (iarep_init 1) D) as [R _]. rewrite G in R.
    assert (HF : exists q, In q (IA_vertices g) /\ A_is_final (ia_base g) q = true). { destruct (PF w) as (v & Iv & _ & Fv); [exists w; split; [exact Iw|exists []; symmetry; apply app_nil_r]|]. exists v. split; [exact Iv|]. rewrite Fv. apply mem_spec, Iw. }
    assert (HN : exists q, In q (IA_vertices g) /\ A_is_final (ia_base g) q = false). { destruct (PF x) as (v & Iv & _ & Fv); [exists w; auto|]. exists v. split; [exact Iv|]. rewrite Fv. apply not_true_iff_false. rewrite mem_spec. exact Nx. }
    pose proof (C79_hopcroft_trim_partial ord_w ord_p ord_a ord_l ord_q OW OP OA OL OQ 1 ops fuel 0 D) as H. cbv zeta in H. rewrite G in H. destruct (H Q V0 AC CO HF HN ltac:(lia)) as (g' & q0' & E' & Q' & W' & LL & M).
    assert (LG : forall u, language (ia_dfa g 0) u <-> In u ws) by (intros u; rewrite <- (accepts_language g _ 0 u R Q); apply AL).
    exists g, g', q0'. split; [exact E|]. split; [exact E'|]. split; [exact Q'|]. split; [exact W'|]. split; [intros u; rewrite LL; apply LG|].
    intros d WD LD. apply (M d WD). intros u. rewrite LD, LG. reflexivity.
  Qed.
End A.
Print Assumptions C89_insert_string.
Print Assumptions C89_insert_one.
Print Assumptions C90_words_revuz.
Print Assumptions C90_words_hopcroft.

(** 0 -1-> 1, 0 -2-> 1: inserting 1 3 also adds 2 3. The word inserted is not the only one added. *)
Definition ex_ops : list (aop nat) := [AAddEdge 0 1 1; AAddEdge 0 1 2].
Theorem C89_insert_one_refuted : exists (ops : list (aop nat)) w u g', let g := fst (runs A_call (A_init 2) ops) in
  A_insert_string g w = (g', Ok tt) /\ A_accepts g u = false /\ u <> w /\ A_accepts g' u = true.
Proof. exists ex_ops, [1; 3], [2; 3]. eexists. split; [vm_compute; reflexivity|]. split; [reflexivity|]. split; [discriminate|reflexivity]. Qed.
Print Assumptions C89_insert_one_refuted.

(** A final flag set on a vertex that is not there yet: the insertion of 1 3 also accepts 1. *)
Theorem C89_future_final_refuted : exists (ops : list (aop nat)) w u g', let g := fst (runs A_call (A_init 1) ops) in
  A_edges g = [] /\ A_insert_string g w = (g', Ok tt) /\ A_accepts g u = false /\ u <> w /\ A_accepts g' u = true.
Proof. exists [ASetFinal 1 true], [1; 3], [1]. eexists. split; [reflexivity|]. split; [vm_compute; reflexivity|]. split; [reflexivity|]. split; [discriminate|reflexivity]. Qed.
Print Assumptions C89_future_final_refuted.

Example C89_no_initial_example : let g := fst (runs A_call (A_init 2) [AAddEdge 0 1 1; ASetInitial None true]) in
  A_initial g = None /\ snd (A_insert_string g [1]) = Raise KeyError /\ A_vertices (fst (A_insert_string g [1])) = [0; 1; 2].
Proof. vm_compute. auto. Qed.
Print Assumptions C89_no_initial.
Print Assumptions C89_no_initial_incidence.

Example C89_example : exists g', A_insert_string (fst (runs A_call (A_init 2) ex_ops)) [1; 3] = (g', Ok tt) /\ A_accepts g' [1; 3] = true /\ A_accepts g' [2; 3] = true.
Proof.
  destruct (C89_insert_string 2 ex_ops 0 [1; 3]) as (g' & i & q & E & L & P & M & H).
  - reflexivity.
  - vm_compute. auto.
  - intros e I. vm_compute in I. destruct I as [<- | [<- | []]]; vm_compute; auto.
  - intros v X. vm_compute in X. discriminate.
  - assert (E1 : forall a, a = 1 \/ a = 2 -> path (A_edges (fst (runs A_call (A_init 2) ex_ops))) 0 [a] 1) by (intros a [-> | ->]; (econstructor; [|constructor]); vm_compute; auto).
    exists g'. split; [exact E|]. assert (i = 1) as ->.
    { destruct i as [|[|i]]; [exfalso; apply (M ltac:(cbn; lia) 1), E1; auto|reflexivity|exfalso]. assert (i = 0) as -> by (cbn in L; lia). cbn in P. inversion P as [|? ? m ? ? I1 P1]; subst. inversion P1 as [|? ? m' ? ? I2 P2]; subst. vm_compute in I2. destruct I2 as [X | [X | []]]; discriminate. }
    cbn in P. inversion P as [|? ? m ? ? I1 P1]; subst. inversion P1; subst. vm_compute in I1. assert (q = 1) as -> by (destruct I1 as [X | [X | []]]; congruence).
    split; apply H; right; [exists [1]|exists [2]]; (split; [apply E1; auto|reflexivity]).
Qed.

(** The words 1 3, 2 3 and 1: three states are not enough, four are. *)
Definition ex_ws : list (list nat) := [[1; 3]; [2; 3]; [1]].
Example C90_example : forall d : dfa nat, wf_dfa d -> (forall u, language d u <-> In u ex_ws) -> 4 <= length (d_states d).
Proof.
  intros d W L. destruct (C90_words_revuz ex_ws 6 id_ord id_ord) as (g & g' & h & E & EH & _ & _ & _ & _ & M); [discriminate|apply id_ord_valid|apply id_ord_valid|vm_compute; lia|].
  destruct (M d W L) as [LE _]. assert (EV : length (IA_vertices g') = 4); [|rewrite EV in LE; exact LE]. vm_compute in E. injection E as <-. vm_compute in EH. injection EH as <- <-. reflexivity.
Qed.
