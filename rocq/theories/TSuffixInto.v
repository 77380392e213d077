(** Theorems C19: make_suffix_trie extending a given trie. *)
From Verif Require Import Base BaseProofs Graph GraphProofs Automaton AutomatonSpec AutomatonProofs
  Trie TrieSpec TrieProofs TrieProofs2 PBFS PBFSProofs4 TPBFS MinSpec TrieSizeSpec TTrieSize SuffixInto.
#[local] Arguments dkeys : simpl never.

Section T.
  Context {A : Type} {EA : EqDec A}.

  Lemma into_spec (g : aut A) word w ml : shape g word -> exists g' word',
    make_suffix_trie_into g w ml = (g', Ok tt) /\ shape g' word' /\ (forall x, A_is_final g' x = A_is_final g x) /\
    (forall x, has_word g' word' x <-> has_word g word x \/ (factor w x /\ fits ml x)).
  Proof.
    intros S. unfold make_suffix_trie_into.
    assert (N : A_num_vertices g =? 0 = false).
    { apply Nat.eqb_neq. unfold A_num_vertices. pose proof (sh_root _ _ S) as I. destruct (A_vertices g); [destruct I|discriminate]. }
    rewrite N. destruct (suffix_loop_spec w ml (seq 0 (length w)) g word S) as (g' & word' & E & S' & F & H).
    exists g', word'. split; [exact E|]. split; [exact S'|]. split; [exact F|]. intros x. rewrite H, <- suffix_words.
    assert (R : x = [] -> has_word g word x) by (intros ->; exists 0; split; [apply S|apply (sh_word0 _ _ S)]). tauto.
  Qed.

  (** The default [g] is a trie of one state. *)
  Theorem C19_default_trie (w : list A) max_len : make_suffix_trie_into ST_init w max_len = make_suffix_trie w max_len.
  Proof. reflexivity. Qed.

  (** A Trie(num_vertices=0) is completed with its root. *)
  Theorem C19_trie_without_vertex (w : list A) max_len :
    make_suffix_trie_into (A_init 0) w max_len = make_suffix_trie_into T_init w max_len.
  Proof. reflexivity. Qed.

  (** C19: calls in sequence on the trie built by a first call (and passed to the others) gather the factors of all
      the words, each within the bound given with the word; nothing else is accepted and no state is of no use. *)
  Theorem C19_several_words (calls : list (list A * option nat)) : exists g,
    make_suffix_tries_into ST_init calls = (g, Ok tt) /\
    (forall u, A_accepts g u = true <-> u = [] \/ exists w max_len, In (w, max_len) calls /\ factor w u /\ fits max_len u) /\
    tree_of g (fun u => u = [] \/ exists w max_len, In (w, max_len) calls /\ factor w u /\ fits max_len u).
  Proof.
    assert (H : forall calls (g : aut A) word, shape g word -> exists g' word', make_suffix_tries_into g calls = (g', Ok tt) /\ shape g' word' /\
      (forall x, A_is_final g' x = A_is_final g x) /\
      (forall x, has_word g' word' x <-> has_word g word x \/ exists w max_len, In (w, max_len) calls /\ factor w x /\ fits max_len x)).
    { clear calls. induction calls as [|[w ml] calls IH]; intros g word S; unfold make_suffix_tries_into; cbn [foreach].
      - exists g, word. split; [reflexivity|]. split; [exact S|]. split; [reflexivity|]. intros x. split; [auto|].
        intros [X|(w & ml & [] & _)]; exact X.
      - destruct (into_spec g word w ml S) as (g1 & word1 & E1 & S1 & F1 & H1). rewrite E1.
        destruct (IH g1 word1 S1) as (g' & word' & E & S' & F & H). exists g', word'. split; [exact E|]. split; [exact S'|].
        split; [intros x; rewrite F; apply F1|]. intros x. rewrite H, H1. split.
        + intros [[X|X]|(w' & ml' & I & X)]; [auto| |]; right; [exists w, ml|exists w', ml']; split; cbn; auto.
        + intros [X|(w' & ml' & [I|I] & X)]; [auto| |right; exists w', ml'; auto]. injection I as -> ->. auto. }
    destruct (H calls ST_init (fun _ => []) (shape_ext_final _ _ _ shape_init)) as (g & word & E & S & F & W). exists g. split; [exact E|].
    assert (W' : forall x, has_word g word x <-> x = [] \/ exists w max_len, In (w, max_len) calls /\ factor w x /\ fits max_len x).
    { intros x. rewrite W. apply or_iff_compat_r. unfold has_word.
      split; [intros (v & _ & <-); reflexivity|intros ->; exists 0; split; [left|]; reflexivity]. }
    split; [|exact (shape_tree _ _ _ S W')]. intros u. rewrite <- W', (shape_accepts _ _ S). unfold has_word.
    split; intros (v & X); exists v; [tauto|]. rewrite F. cbn. tauto.
  Qed.

  (** the transitions present are kept *)
  Definition keeps (g g' : aut A) : Prop := forall q a r, A_delta g q a = Some r -> A_delta g' q a = Some r.
  Lemma suffix_walk_keeps u : forall (g : aut A) word q g', shape g word -> In q (A_vertices g) ->
    suffix_walk g q u = (g', Ok tt) -> keeps g g'.
  Proof.
    induction u as [|a u IH]; intros g word q g' S Iq E; cbn [suffix_walk] in E; [injection E as <-; intros x b r D; exact D|].
    destruct (A_delta g q a) as [r|] eqn:D; [apply (IH g word r g' S); [apply (sh_edge _ _ S _ _ _ D)|exact E]|].
    destruct (shape_leaf g word q a S Iq D) as (g1 & g2 & e & E1 & E2 & V & F & NI & D2 & L2 & S2). rewrite E1, E2 in E.
    assert (K : keeps g2 g') by (apply (IH g2 _ (au_last g) g' S2); [rewrite V; apply in_app_iff; right; left; reflexivity|exact E]).
    intros x b r Dx. apply K. rewrite D2. destruct (Nat.eqb_spec x q) as [->|]; [|exact Dx]. cbn.
    destruct (eqb_spec b a) as [->|]; [congruence|exact Dx].
  Qed.
  Lemma suffix_loop_keeps w ml L : forall (g : aut A) word g', shape g word ->
    foreach (fun g i => match A_initial g with None => (g, Raise KeyError) | Some q0 => suffix_walk g q0 (slice w i (stop (length w) i ml)) end) g L = (g', Ok tt) ->
    keeps g g'.
  Proof.
    induction L as [|i L IH]; intros g word g' S E; cbn [foreach] in E; [injection E as <-; intros x b r D; exact D|].
    rewrite (sh_q0 _ _ S) in E.
    destruct (suffix_walk_spec (slice w i (stop (length w) i ml)) g word 0 S (sh_root _ _ S)) as (g1 & word1 & E1 & S1 & _).
    rewrite E1 in E. pose proof (suffix_walk_keeps _ _ _ _ _ S (sh_root _ _ S) E1) as K1. pose proof (IH _ _ _ S1 E) as K2.
    intros q a r D. apply K2, K1, D.
  Qed.
  Lemma keeps_word (g g' : aut A) : keeps g g' -> forall w q r, A_delta_word g (Some q) w = Some r -> A_delta_word g' (Some q) w = Some r.
  Proof.
    intros K. induction w as [|a w IH]; intros q r E; [exact E|]. cbn [A_delta_word] in *.
    destruct (A_delta g q a) as [q'|] eqn:D; [rewrite (K _ _ _ D); apply IH, E|]. destruct w; discriminate.
  Qed.

  (** C19: in a trie whose final states are those of its words, make_suffix_trie adds the states of the
      factors but makes none of them final: the trie accepts what it accepted, and the factors are read. *)
  Theorem C19_given_trie (t : aut A) (w : list A) max_len : is_trie t -> exists t',
    make_suffix_trie_into t w max_len = (t', Ok tt) /\ (forall u, A_accepts t' u = A_accepts t u) /\
    tree_of t' (fun u => prefixes_of (fun x => A_accepts t x = true) u \/ (factor w u /\ fits max_len u)).
  Proof.
    intros H. destruct (is_trie_tree t H) as (word & S & Fin & I).
    destruct (into_spec t word w max_len S) as (t' & word' & E & S' & F & W). exists t'. split; [exact E|].
    assert (K : keeps t t').
    { unfold make_suffix_trie_into in E.
      assert (N : A_num_vertices t =? 0 = false).
      { apply Nat.eqb_neq. unfold A_num_vertices. pose proof (sh_root _ _ S) as J. destruct (A_vertices t); [destruct J|discriminate]. }
      rewrite N in E. exact (suffix_loop_keeps _ _ _ _ _ _ S E). }
    split.
    - intros u. apply eq_true_iff_eq. unfold A_accepts. rewrite (sh_q0 _ _ S), (sh_q0 _ _ S'). split.
      + destruct (A_delta_word t' (Some 0) u) as [v|] eqn:D; [|discriminate]. rewrite F. intros Fv.
        pose proof (proj2 (shape_path _ _ S (word v) v) (conj (Fin v Fv) eq_refl)) as Dv. pose proof (keeps_word _ _ K _ _ _ Dv) as Dv'.
        apply (shape_path _ _ S') in D, Dv'. destruct D as [_ <-], Dv' as [_ ->]. rewrite Dv. exact Fv.
      + destruct (A_delta_word t (Some 0) u) as [v|] eqn:D; [|discriminate]. rewrite (keeps_word _ _ K _ _ _ D), F. auto.
    - apply (shape_tree _ _ _ S'). intros x. rewrite W, I. reflexivity.
  Qed.
End T.

(** The trie of 1.2, then the suffixes of 3.1.3: four states are added, the words accepted are the same. *)
Example C19_given_trie_nontrivial :
  let t := fst (T_inserts (@T_init nat) [[1; 2]]) in let t' := fst (make_suffix_trie_into t [3; 1; 3] None) in
  is_trie t /\ length (A_vertices t) = 3 /\ length (A_vertices t') = 7 /\ A_delta_word t' (Some 0) [1; 3] <> None /\
  A_accepts t' [1; 2] = true /\ A_accepts t' [1; 3] = false.
Proof. split; [apply tsz_is_trie|]. vm_compute. repeat split. discriminate. Qed.
(** Two words, the second bounded to two symbols: 2.3 is accepted through the second, 2.3.1 is not. *)
Example C19_several_words_nontrivial :
  let g := fst (make_suffix_tries_into (@ST_init nat) [([1; 2; 1], None); ([2; 3; 1], Some 2)]) in
  A_accepts g [1; 2; 1] = true /\ A_accepts g [2; 3] = true /\ A_accepts g [2; 3; 1] = false /\ length (A_vertices g) = 9.
Proof. vm_compute. repeat split. Qed.

Print Assumptions C19_default_trie.
Print Assumptions C19_trie_without_vertex.
Print Assumptions C19_several_words.
Print Assumptions C19_given_trie.
