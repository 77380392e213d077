(** C107: comparisons and hashing of the edge descriptors. C108: the descriptors of an Nfa. *)
From Coq Require Import ZArith Sorted String.
From Verif Require Import Str Graph Automaton AutomatonSpec Nfa NfaSpec NfaProofs TNfa EdgeDesc EdgeDescSpec EdgeDescProofs.
From Verif Require Import Base BaseProofs.
Open Scope string_scope.
Open Scope nat_scope.
Open Scope list_scope.

Section C107.
  (** An edge descriptor is never equal to None; two are equal when their fields are. *)
  Theorem C107_equality e e' : E_eq e None = false /\ (E_eq e (Some e') = true <-> e_same e e').
  Proof. split; [reflexivity|]. cbn [E_eq]. rewrite !andb_true_iff, !py_eq_spec. unfold e_same. tauto. Qed.

  (** [e < e'] compares the sources, then the targets, then the distinguishers; it raises TypeError exactly when the first
      different fields have no order. *)
  Theorem C107_order e e' :
    (E_lt e e' = Ok true <-> e_less e e') /\ (E_lt e e' = Raise TypeError <-> e_clash e e') /\
    ((exists b, E_lt e e' = Ok b) \/ E_lt e e' = Raise TypeError).
  Proof.
    pose proof (py_lt_spec (d_source e) (d_source e')) as [S1 S2]. pose proof (py_lt_spec (d_target e) (d_target e')) as [T1 T2].
    pose proof (py_lt_spec (d_dist e) (d_dist e')) as [D1 D2].
    pose proof (less_not_same (d_source e) (d_source e')) as L1. pose proof (less_not_same (d_target e) (d_target e')) as L2. pose proof (less_not_same (d_dist e) (d_dist e')) as L3.
    assert (EQ : E_lt e e' = if py_eq (d_source e) (d_source e') then if py_eq (d_target e) (d_target e') then if py_eq (d_dist e) (d_dist e') then Ok false
      else py_lt (d_dist e) (d_dist e') else py_lt (d_target e) (d_target e') else py_lt (d_source e) (d_source e')) by reflexivity.
    assert (F1 : (@Ok bool false = Ok true) <-> False) by (split; [discriminate|tauto]). assert (F2 : (@Ok bool false = Raise TypeError) <-> False) by (split; [discriminate|tauto]).
    split; [|split; [|apply py_lt_cases]]; rewrite EQ; unfold e_less, e_clash;
      (destruct (py_eq (d_source e) (d_source e')) eqn:E1; [apply py_eq_spec in E1|apply py_eq_false in E1; tauto]);
      (destruct (py_eq (d_target e) (d_target e')) eqn:E2; [apply py_eq_spec in E2|apply py_eq_false in E2; tauto]);
      (destruct (py_eq (d_dist e) (d_dist e')) eqn:E3; [apply py_eq_spec in E3|apply py_eq_false in E3]; tauto).
  Qed.

  (** hash(e) fails exactly when a field is a set or a tuple that contains one. *)
  Theorem C107_hash e : E_hash e = Raise TypeError /\ (holds_set (d_source e) \/ holds_set (d_target e) \/ holds_set (d_dist e)) \/
    E_hash e = Ok tt /\ ~ (holds_set (d_source e) \/ holds_set (d_target e) \/ holds_set (d_dist e)).
  Proof.
    unfold E_hash. destruct (py_hash_spec (d_tuple e)) as [[E N]|[E H]]; [right|left]; (split; [exact E|]).
    - intros H. apply N. destruct H as [H|[H|H]]; (econstructor; [|exact H]); cbn; auto.
    - inversion H as [|l x I HS]; subst. cbn in I. intuition congruence.
  Qed.

  (** On descriptors of the same type, [<] never raises and is a strict total order. *)
  Theorem C107_total_order t e1 e2 e3 : typed t e1 -> typed t e2 -> typed t e3 ->
    (E_lt e1 e2 = Ok true /\ e1 <> e2 /\ E_eq e1 (Some e2) = false /\ E_lt e2 e1 = Ok false \/
     e1 = e2 /\ E_eq e1 (Some e2) = true /\ E_lt e1 e2 = Ok false \/
     E_lt e1 e2 = Ok false /\ e1 <> e2 /\ E_eq e1 (Some e2) = false /\ E_lt e2 e1 = Ok true) /\
    (E_lt e1 e2 = Ok true -> E_lt e2 e3 = Ok true -> E_lt e1 e3 = Ok true).
  Proof.
    assert (TT : forall e, typed t e -> has_type (TTup [TInt; TInt; t]) (d_tuple e)) by (intros e (A & B & C); repeat constructor; assumption).
    intros T1 T2 T3. split.
    - assert (EE : E_eq e1 (Some e2) = py_eq (d_tuple e1) (d_tuple e2)) by (unfold d_tuple; rewrite py_eq_tup; cbn [E_eq eqs]; rewrite andb_true_r, andb_assoc; reflexivity). rewrite EE.
      assert (NS : d_tuple e1 <> d_tuple e2 -> e1 <> e2 /\ py_eq (d_tuple e1) (d_tuple e2) = false).
      { intros N. split; [congruence|]. apply py_eq_false. intros S. apply N. eapply same_typed; [apply TT, T1|apply TT, T2|exact S]. }
      destruct (typed_total _ _ _ (TT _ T1) (TT _ T2)) as [(A & B & C)|[(A & B)|(A & B & C)]].
      + left. destruct (NS B). auto.
      + right. left. split; [destruct e1, e2; unfold d_tuple in A; cbn in A; congruence|]. split; [rewrite A; apply py_eq_spec, same_refl|exact B].
      + right. right. destruct (NS B). auto.
    - eapply typed_trans; apply TT; assumption.
  Qed.

  (** sorted(l) does not depend on the order of [l]; the result is increasing. *)
  Theorem C107_sorted t l : Forall (typed t) l -> exists s, E_sorted l = Ok s /\ Permutation s l /\ StronglySorted (fun e e' => E_lt e' e = Ok false) s /\
    forall l', Permutation l l' -> E_sorted l' = Ok s.
  Proof.
    set (le := fun e e' => E_lt e' e = Ok false).
    assert (INS : forall x s, typed t x -> Forall (typed t) s -> StronglySorted le s -> exists s', E_insort x s = Ok s' /\ Permutation s' (x :: s) /\ StronglySorted le s').
    { intros x s Tx Ts. induction Ts as [|y s Ty Ts IH]; intros SS; [exists [x]; repeat split; [reflexivity|constructor; constructor]|].
      cbn [E_insort]. apply StronglySorted_inv in SS. destruct SS as [SS FL].
      destruct (proj1 (C107_total_order t y x x Ty Tx Tx)) as [(-> & _ & _ & Lxy)|[(-> & _ & Lxy)|(-> & _ & _ & Lxy)]]; cbn [rbind].
      - destruct (IH SS) as (s' & -> & P & S'). exists (y :: s'). split; [reflexivity|]. split; [rewrite P; apply perm_swap|]. constructor; [exact S'|].
        apply Forall_forall. intros z I. apply (Permutation_in _ P) in I. destruct I as [<-|I]; [exact Lxy|]. apply (proj1 (Forall_forall _ _) FL z I).
      - rewrite Lxy. cbn [rbind]. exists (x :: x :: s). split; [reflexivity|]. split; [reflexivity|]. constructor; [constructor; assumption|]. constructor; [exact Lxy|exact FL].
      - exists (x :: y :: s). split; [reflexivity|]. split; [reflexivity|]. constructor; [constructor; assumption|]. constructor; [|].
        + destruct (proj1 (C107_total_order t y x x Ty Tx Tx)) as [(_ & _ & _ & A)|[(-> & _ & A)|(A & _ & _ & B)]]; [rewrite A in Lxy; discriminate|exact A|exact A].
        + apply Forall_forall. intros z I. pose proof (proj1 (Forall_forall _ _) FL z I) as Lz. pose proof (proj1 (Forall_forall _ _) Ts z I) as Tz. unfold le in *.
          destruct (proj1 (C107_total_order t z x x Tz Tx Tx)) as [(A & _)|[(_ & _ & A)|(A & _)]]; [|exact A|exact A].
          rewrite (proj2 (C107_total_order t z x y Tz Tx Ty) A Lxy) in Lz. discriminate. }
    assert (ALL : forall l, Forall (typed t) l -> exists s, E_sorted l = Ok s /\ Permutation s l /\ StronglySorted le s).
    { intros l0 T. induction T as [|x l0 Tx T IH]; [exists []; repeat split; constructor|]. destruct IH as (s & E & P & SS).
      unfold E_sorted in *. cbn [fold_right]. rewrite E. cbn [rbind]. destruct (INS x s Tx) as (s' & E' & P' & S'); [|exact SS|].
      { apply (Permutation_Forall (Permutation_sym P)). exact T. }
      exists s'. split; [exact E'|]. split; [rewrite P', P; reflexivity|exact S']. }
    intros T. destruct (ALL l T) as (s & E & P & SS). exists s. split; [exact E|]. split; [exact P|]. split; [exact SS|]. intros l' P'.
    assert (T' : Forall (typed t) l') by (apply (Permutation_Forall P'), T).
    destruct (ALL l' T') as (s' & E' & Q & SS'). rewrite E'. f_equal.
    assert (PP : Permutation s s') by (rewrite P, P', Q; reflexivity).
    assert (Ts : Forall (typed t) s) by (apply (Permutation_Forall (Permutation_sym P)), T). clear - PP Ts SS SS' le. symmetry.
    revert s' PP SS'. induction s as [|x s IH]; intros s' PP SS'; [apply Permutation_nil in PP; congruence|]. destruct s' as [|y s']; [apply Permutation_sym, Permutation_nil in PP; discriminate|].
    pose proof (Permutation_in _ PP (or_introl eq_refl)) as I1. pose proof (Permutation_in _ (Permutation_sym PP) (or_introl eq_refl)) as I2.
    assert (Tx : typed t x) by (inversion Ts; assumption). assert (Ty : typed t y) by (apply (proj1 (Forall_forall _ _) Ts), I2).
    apply StronglySorted_inv in SS, SS'. destruct SS as [SS F], SS' as [SS' F'].
    assert (EQ : x = y).
    { destruct I1 as [H|I1]; [congruence|]. destruct I2 as [H|I2]; [congruence|]. pose proof (proj1 (Forall_forall _ _) F' _ I1) as A. pose proof (proj1 (Forall_forall _ _) F _ I2) as B. unfold le in A, B.
      destruct (proj1 (C107_total_order t x y y Tx Ty Ty)) as [(C & _)|[(C & _)|(_ & _ & _ & C)]]; [rewrite C in A; discriminate|exact C|rewrite C in B; discriminate]. }
    subst y. f_equal. apply IH; [exact SS|inversion Ts; assumption|eapply Permutation_cons_inv; exact PP|exact SS'].
  Qed.

  (** The edges of the graphs, and those of the automata whose symbols are strings, have the same type. *)
  Theorem C107_types (g : graph) : Forall (typed TInt) (map G_descr (G_edges g)) /\ forall h : aut str, Forall (typed TStr) (map (A_descr VStr) (A_edges h)).
  Proof. split; [|intros h]; apply Forall_forall; intros e I; apply in_map_iff in I; destruct I as (x & <- & _); repeat split; constructor. Qed.

  (** In particular the edges of a graph are equal when they have the same source, target and number, and are ordered by these three; those of an automaton whose symbols are strings by source, target and symbol. *)
  Theorem C107_graph_edges (e e' : edge nat) :
    (E_eq (G_descr e) (Some (G_descr e')) = true <-> e = e') /\
    (E_lt (G_descr e) (G_descr e') = Ok true <-> source e < source e' \/ source e = source e' /\ (target e < target e' \/ target e = target e' /\ distinguisher e < distinguisher e')).
  Proof.
    assert (SI : forall a b, same (vint a) (vint b) <-> a = b) by (intros a b; split; [intros X; inversion X; lia|intros ->; constructor]).
    assert (LI : forall a b, less (vint a) (vint b) <-> a < b) by (intros a b; split; [intros X; inversion X; lia|intros X; constructor; lia]).
    split.
    - rewrite (proj2 (C107_equality _ _)). destruct e as [p r k], e' as [p' r' k']. unfold e_same, G_descr. cbn [d_source d_target d_dist source target distinguisher]. rewrite !SI. split; [intros (-> & -> & ->); reflexivity|intros [= -> -> ->]; auto].
    - rewrite (proj1 (C107_order _ _)). unfold e_less, G_descr. cbn [d_source d_target d_dist]. rewrite !SI, !LI. reflexivity.
  Qed.
  Theorem C107_automaton_edges (e e' : edge str) :
    (E_eq (A_descr VStr e) (Some (A_descr VStr e')) = true <-> e = e') /\
    (E_lt (A_descr VStr e) (A_descr VStr e') = Ok true <-> source e < source e' \/ source e = source e' /\ (target e < target e' \/ target e = target e' /\ before (distinguisher e) (distinguisher e'))).
  Proof.
    assert (SI : forall a b, same (vint a) (vint b) <-> a = b) by (intros a b; split; [intros X; inversion X; lia|intros ->; constructor]).
    assert (LI : forall a b, less (vint a) (vint b) <-> a < b) by (intros a b; split; [intros X; inversion X; lia|intros X; constructor; lia]).
    assert (SS : forall a b, same (VStr a) (VStr b) <-> a = b) by (intros a b; split; [intros X; inversion X; reflexivity|intros ->; constructor]).
    assert (LS : forall a b, less (VStr a) (VStr b) <-> before a b) by (intros a b; split; [intros X; inversion X; assumption|intros X; constructor; exact X]).
    split.
    - rewrite (proj2 (C107_equality _ _)). destruct e as [p r k], e' as [p' r' k']. unfold e_same, A_descr. cbn [d_source d_target d_dist source target distinguisher]. rewrite !SI, SS. split; [intros (-> & -> & ->); reflexivity|intros [= -> -> ->]; auto].
    - rewrite (proj1 (C107_order _ _)). unfold e_less, A_descr. cbn [d_source d_target d_dist]. rewrite !SI, !LI, LS. reflexivity.
  Qed.

  (** set(l) raises exactly when a descriptor holds a set; otherwise it keeps one descriptor among those that are equal. *)
  Definition unhashable (e : descr) : Prop := holds_set (d_source e) \/ holds_set (d_target e) \/ holds_set (d_dist e).
  Theorem C107_set l :
    (Exists unhashable l -> py_set l = Raise TypeError) /\
    (~ Exists unhashable l -> exists s, py_set l = Ok s /\ incl s l /\ (forall e, In e l -> exists e', In e' s /\ e_same e' e) /\ ForallOrdPairs (fun e e' => ~ e_same e e') s).
  Proof.
    assert (HH : forall e, E_hash e = Raise TypeError /\ unhashable e \/ E_hash e = Ok tt /\ ~ unhashable e) by (intros e; apply C107_hash).
    unfold py_set. split.
    - generalize (@nil descr) as acc. intros acc X. revert acc. induction X as [e l U|e l X IH]; intros acc; cbn [py_set_add]; destruct (HH e) as [[-> _]|[-> NU]]; cbn [rbind]; try reflexivity; [contradiction|apply IH].
    - intros NU. assert (K : forall l acc, ~ Exists unhashable l -> ForallOrdPairs (fun e e' => ~ e_same e e') acc -> exists s, py_set_add acc l = Ok s /\ incl acc s /\ incl s (acc ++ l) /\ (forall e, In e l -> exists e', In e' s /\ e_same e' e) /\ ForallOrdPairs (fun e e' => ~ e_same e e') s).
      { clear l NU. induction l as [|e l IH]; intros acc NU FP; cbn [py_set_add].
        - exists acc. split; [reflexivity|]. rewrite app_nil_r. split; [apply incl_refl|]. split; [apply incl_refl|]. split; [intros e []|exact FP].
        - destruct (HH e) as [[_ U]|[-> _]]; [destruct NU; left; exact U|]. cbn [rbind]. assert (NU' : ~ Exists unhashable l) by (intros X; apply NU; right; exact X).
          destruct (existsb (fun x => E_eq x (Some e)) acc) eqn:EX.
          + destruct (IH acc NU' FP) as (s & -> & I1 & I2 & I3 & I4). exists s. split; [reflexivity|]. split; [exact I1|]. split; [intros x Ix; apply I2 in Ix; apply in_app_or in Ix; apply in_or_app; cbn; tauto|]. split; [|exact I4].
            intros x [<-|Ix]; [|apply I3, Ix]. apply existsb_exists in EX. destruct EX as (y & Iy & Ey). exists y. split; [apply I1, Iy|]. apply (C107_equality y e), Ey.
          + destruct (IH (acc ++ [e]) NU') as (s & -> & I1 & I2 & I3 & I4).
            * assert (NE : forall y, In y acc -> ~ e_same y e) by (intros y Iy S; apply (C107_equality y e) in S; apply not_true_iff_false in EX; apply EX, existsb_exists; eauto).
              clear -FP NE. induction FP as [|y acc F FP IHF]; [constructor; [constructor|constructor]|]. cbn [app]. constructor; [|apply IHF; intros z Iz; apply NE; now right].
              apply Forall_app. split; [exact F|]. constructor; [apply NE; now left|constructor].
            * exists s. split; [reflexivity|]. split; [intros x Ix; apply I1, in_or_app; auto|]. split; [intros x Ix; apply I2 in Ix; rewrite <- app_assoc in Ix; exact Ix|]. split; [|exact I4].
              intros x [<-|Ix]; [|apply I3, Ix]. exists e. split; [apply I1, in_or_app; right; now left|]. repeat split; apply same_refl. }
      destruct (K l [] NU) as (s & E & _ & I2 & I3 & I4); [constructor|]. exists s. auto.
  Qed.
  Example C107_set_example : py_set [D (VInt 0) (VInt 1) (VInt 0); D (VInt 0) (VInt 2) (VInt 0); D (VInt 0) (VInt 1) (VInt 0)] = Ok [D (VInt 0) (VInt 1) (VInt 0); D (VInt 0) (VInt 2) (VInt 0)].
  Proof. reflexivity. Qed.

  (** An automaton can have symbols of several types: then its edges may have no order. *)
  Definition sym_of (b : bool) : value := if b then VInt 1 else VStr (lit "a").
  Definition mixed : aut bool := fst (runs A_call (A_init 2) [AAddEdge 0 1 true; AAddEdge 0 1 false]).
  Theorem C107_mixed_refuted : exists l, E_sorted (map (A_descr sym_of) l) = Raise TypeError /\ l = A_edges mixed.
  Proof. eexists. split; [|reflexivity]. vm_compute. reflexivity. Qed.
End C107.

Section C108.
  Context {A : Type} `{EqDec A}.
  Variable sym : A -> value.
  (** An Nfa built by any sequence of calls. *)
  Variables (n : nat) (ini : list nat) (eps : A) (ops : list (nfop A)).
  Definition the_nfa : nfa A := built n ini eps ops.

  Lemma the_nwf : nwf (nf_adj the_nfa).
  Proof. apply (r_wf _ _ _ (N_runs_rep n ini eps ops)). Qed.

  Lemma N_hash e : E_hash (N_descr sym e) = Raise TypeError.
  Proof.
    destruct (C107_hash (N_descr sym e)) as [[E _]|[_ N]]; [exact E|]. exfalso. apply N. right. right. econstructor; [right; left; reflexivity|constructor].
  Qed.

  (** The edges of an Nfa cannot be put in a set: set(nfa.edges()) raises as soon as there is an edge. *)
  Theorem C108_edges_not_hashable : py_set (map (N_descr sym) (N_edges the_nfa)) = if N_num_edges the_nfa =? 0 then Ok [] else Raise TypeError.
  Proof.
    unfold N_num_edges, py_set. destruct (N_edges the_nfa) as [|e l]; [reflexivity|]. cbn [map py_set_add]. rewrite N_hash. reflexivity.
  Qed.

  (** nfa.edge(u, v) raises TypeError as soon as there is an edge from u to v; otherwise it returns (None, False). *)
  Theorem C108_edge u v :
    ((exists a, In (u, a, v) (an_T (described n ini ops))) -> N_edge sym the_nfa u v = Raise TypeError) /\
    (~ (exists a, In (u, a, v) (an_T (described n ini ops))) -> N_edge sym the_nfa u v = Ok (None, false)).
  Proof.
    pose proof (N_runs_rep n ini eps ops) as R. fold the_nfa in R. pose proof (r_T _ _ _ R) as T. pose proof the_nwf as W.
    assert (X : forall e, In e (filter (fun e => target e =? v) (N_out_edges the_nfa u)) <-> exists a k, e = Edge u v (a, k) /\ dget (N_get the_nfa u a) v = Some k).
    { intros [q r [a k]]. rewrite filter_In, In_N_out_edges by exact W. cbn [target]. rewrite Nat.eqb_eq. split.
      - intros [[-> D0] ->]. exists a, k. auto.
      - intros (a' & k' & E & D0). injection E as -> -> -> ->. auto. }
    assert (Y : (exists a, In (u, a, v) (an_T (described n ini ops))) <-> filter (fun e => target e =? v) (N_out_edges the_nfa u) <> []).
    { split.
      - intros (a & I). apply T in I. unfold ntrans in I. destruct (key_dget _ _ I) as [k D0]. intros E. specialize (X (Edge u v (a, k))). rewrite E in X. apply X. eauto.
      - intros N. destruct (filter _ _) as [|e l] eqn:E; [destruct (N eq_refl)|]. destruct (proj1 (X e) (or_introl eq_refl)) as (a & k & -> & D0). exists a. apply T.
        unfold ntrans. eapply dget_Some_key. exact D0. }
    rewrite Y. unfold N_edge, py_set. destruct (filter _ _) as [|e l]; split; intros N; try congruence.
    - reflexivity.
    - cbn [map py_set_add]. rewrite N_hash. reflexivity.
    - destruct N. discriminate.
  Qed.

  (** The descriptor that add_edge returns is never equal to one of edges(), whatever happens in between. *)
  (** The descriptor that add_edge returns names the edge: source, target, symbol and one number. *)
  Theorem C108_add_edge_descriptor g q r a : exists e n, snd (N_add_edge g q r a) = Ok (e, true) /\ N_new_descr sym e = D (vint q) (vint r) (VTup [sym a; vint n]) /\
    n = S (List.length (match dget (match dget (match dget (nf_adj g) q with Some arn => arn | None => [] end) a with Some rn => rn | None => [] end) r with Some s => s | None => [] end)).
  Proof. eexists _, _. split; [reflexivity|]. split; [reflexivity|]. cbn. lia. Qed.

  Theorem C108_add_edge_never g q r a e e' : snd (N_add_edge g q r a) = Ok (e, true) -> In e' (N_edges the_nfa) -> E_eq (N_new_descr sym e) (Some (N_descr sym e')) = false.
  Proof.
    intros _ _. apply not_true_iff_false. rewrite (proj2 (C107_equality _ _)). intros (_ & _ & S). cbn in S. inversion S as [| | |? ? F|]; subst.
    inversion F as [|? ? ? ? _ F']; subst. inversion F' as [|? ? ? ? S' _]; subst. inversion S'.
  Qed.

  (** Two edges of an Nfa are compared by source, target and symbol: the sets are never compared. *)
  Theorem C108_order e e' : (forall a b, same (sym a) (sym b) -> a = b) -> In e (N_edges the_nfa) -> In e' (N_edges the_nfa) -> e <> e' ->
    E_lt (N_descr sym e) (N_descr sym e') = E_lt (A_descr sym (Edge (source e) (target e) (N_label e))) (A_descr sym (Edge (source e') (target e') (N_label e'))).
  Proof.
    intros INJ I I' NE. destruct e as [q r [a k]], e' as [q' r' [a' k']]. unfold E_lt, N_descr, A_descr, d_tuple, N_label. cbn [source target distinguisher fst snd d_source d_target d_dist].
    rewrite !py_lt_tup. cbn [lts]. destruct (py_eq (vint q) (vint q')) eqn:E1; [|reflexivity]. destruct (py_eq (vint r) (vint r')) eqn:E2; [|reflexivity].
    rewrite py_eq_tup. cbn [eqs]. rewrite py_lt_tup. cbn [lts]. destruct (py_eq (sym a) (sym a')) eqn:E3; [|reflexivity]. exfalso. apply NE.
    apply py_eq_spec in E1, E2, E3. apply INJ in E3. assert (q = q') as -> by (inversion E1; lia). assert (r = r') as -> by (inversion E2; lia). subst a'.
    apply In_N_edges in I, I'; try apply the_nwf. congruence.
  Qed.
End C108.

(** ** Examples *)
Definition pair_sym (b : bool) : value := VStr (if b then lit "a" else lit "b").
(** Two edges from 0 to 1, in the graph of the second one. *)
Example C107_example : typed TInt (D (vint 0) (vint 1) (vint 0)) /\ e_less (D (vint 0) (vint 1) (vint 0)) (D (vint 0) (vint 1) (vint 1)) /\
  E_sorted [D (vint 1) (vint 0) (vint 0); D (vint 0) (vint 1) (vint 1); D (vint 0) (vint 1) (vint 0)]
  = Ok [D (vint 0) (vint 1) (vint 0); D (vint 0) (vint 1) (vint 1); D (vint 1) (vint 0) (vint 0)].
Proof.
  split; [repeat split; constructor|]. split; [|reflexivity]. right. split; [constructor|]. right. split; [constructor|]. constructor. cbn. lia.
Qed.
(** a tuple of a string and a number: the shortest string first, then the number *)
Example C107_example_tuples :
  py_lt (VTup [VStr (lit "a"); VInt 2]) (VTup [VStr (lit "ab"); VInt 1]) = Ok true /\ py_lt (VTup [VStr (lit "a"); VInt 2]) (VTup [VStr (lit "a"); VInt 1]) = Ok false /\
  py_lt (VTup [VStr (lit "a"); VNone]) (VTup [VStr (lit "a"); VInt 1]) = Raise TypeError /\ py_lt (VTup [VStr (lit "a"); VNone]) (VTup [VStr (lit "b"); VInt 1]) = Ok true.
Proof. repeat split. Qed.
Example C107_example_clash : clash (VTup [VStr (lit "a"); VNone]) (VTup [VStr (lit "a"); VInt 1]).
Proof. apply (clash_item [VStr (lit "a")] [VStr (lit "a")]); [repeat constructor|intros S; inversion S|apply clash_kind; discriminate]. Qed.

(** add_edge(0, 1, a) twice, add_edge(0, 1, b) *)
Definition ex_nfa : list (nfop bool) := [FAddEdge 0 1 true; FAddEdge 0 1 true; FAddEdge 0 1 false].
Example C108_example :
  N_edges (the_nfa 2 [] true ex_nfa) = [Edge 0 1 (true, [1; 2]); Edge 0 1 (false, [1])] /\
  N_edge pair_sym (the_nfa 2 [] true ex_nfa) 0 1 = Raise TypeError /\ N_edge pair_sym (the_nfa 2 [] true ex_nfa) 1 0 = Ok (None, false) /\
  E_lt (N_descr pair_sym (Edge 0 1 (true, [1; 2]))) (N_descr pair_sym (Edge 0 1 (false, [1]))) = Ok true.
Proof. repeat split. Qed.
(** edges() contains no descriptor equal to the one that add_edge returns *)
Theorem C108_add_edge_refuted : exists g g' e, N_add_edge g 0 1 true = (g', Ok (e, true)) /\ g = the_nfa 2 [] true ex_nfa /\
  existsb (fun x => E_eq (N_new_descr pair_sym e) (Some (N_descr pair_sym x))) (N_edges g') = false /\ length (N_edges g') = 2.
Proof. exists (the_nfa 2 [] true ex_nfa). eexists. eexists. split; [reflexivity|]. split; [reflexivity|]. split; vm_compute; reflexivity. Qed.

Print Assumptions C107_equality.
Print Assumptions C107_order.
Print Assumptions C107_hash.
Print Assumptions C107_total_order.
Print Assumptions C107_sorted.
Print Assumptions C107_graph_edges.
Print Assumptions C107_automaton_edges.
Print Assumptions C107_set.
Print Assumptions C107_types.
Print Assumptions C107_mixed_refuted.
Print Assumptions C108_edges_not_hashable.
Print Assumptions C108_edge.
Print Assumptions C108_add_edge_never.
Print Assumptions C108_add_edge_refuted.
Print Assumptions C108_add_edge_descriptor.
Print Assumptions C108_order.
