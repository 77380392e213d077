(** Theorems C49 and C50 on Heap and Comparable. *)
From Coq Require Import Sorted.
From Verif Require Import Heap HeapSpec HeapProofs Base BaseProofs.

(** C50 *)
Theorem C50_comparable {X} (preorder : X -> X -> bool) : total_preorder (fun a b => preorder a b = true) -> forall a b,
  (C_le preorder a b = true <-> preorder a b = true) /\
  (C_lt preorder a b = true <-> preorder a b = true /\ preorder b a <> true) /\
  (C_eq preorder a b = true <-> preorder a b = true /\ preorder b a = true) /\
  (C_ne preorder a b = true <-> C_eq preorder a b <> true) /\
  (C_gt preorder a b = true <-> C_lt preorder b a = true) /\
  (C_ge preorder a b = true <-> C_le preorder b a = true).
Proof.
  intros [T _] a b. unfold C_ne, C_le, C_lt, C_eq, C_gt, C_ge. specialize (T a b). cbn in T. destruct (preorder a b), (preorder b a); cbn; [| | |exfalso; destruct T; discriminate]; repeat match goal with |- _ /\ _ => split | |- _ <-> _ => split end; intros; repeat match goal with H : _ /\ _ |- _ => destruct H | |- _ /\ _ => split end; congruence.
Qed.
(** The operators [<], [==], [>] exclude each other, and [<] is transitive. *)
Theorem C50_trichotomy {X} (preorder : X -> X -> bool) : total_preorder (fun a b => preorder a b = true) ->
  (forall a b, (if C_lt preorder a b then 1 else 0) + (if C_eq preorder a b then 1 else 0) + (if C_gt preorder a b then 1 else 0) = 1) /\
  (forall a b c, C_lt preorder a b = true -> C_lt preorder b c = true -> C_lt preorder a c = true) /\
  (forall a b c, C_eq preorder a b = true -> C_eq preorder b c = true -> C_eq preorder a c = true) /\
  (forall a b c, C_lt preorder a b = true -> C_le preorder b c = true -> C_lt preorder a c = true).
Proof.
  intros [T R]. unfold C_le, C_lt, C_eq, C_gt. split; [|split; [|split]].
  - intros a b. specialize (T a b). cbn in T. destruct (preorder a b), (preorder b a); cbn; [reflexivity|reflexivity|reflexivity|exfalso; destruct T; discriminate].
  - intros a b c H1 H2. apply negb_true_iff in H1, H2. apply negb_true_iff. destruct (preorder c a) eqn:H; [|reflexivity]. destruct (T a b) as [H3|H3]; [|congruence]. rewrite (R c a b H H3) in H2. discriminate.
  - intros a b c H1 H2. apply andb_true_iff in H1, H2. apply andb_true_iff. split; [apply (R a b c); tauto|apply (R c b a); tauto].
  - intros a b c H1 H2. apply negb_true_iff in H1. apply negb_true_iff. destruct (preorder c a) eqn:H; [|reflexivity]. rewrite (R b c a H2 H) in H1. discriminate.
Qed.
(** The hypothesis matters: with the strict order Less(), which dijkstra_shortest_path passes by default, an object is
    less than itself and is not equal to itself. *)
Theorem C50_less (a : nat) : C_lt Nat.ltb a a = true /\ C_eq Nat.ltb a a = false.
Proof. unfold C_lt, C_eq. rewrite Nat.ltb_irrefl. auto. Qed.
Example C50_example : total_preorder (fun a b => Nat.leb (a / 10) (b / 10) = true) /\
  C_lt (fun a b => Nat.leb (a / 10) (b / 10)) 12 31 = true /\ C_eq (fun a b => Nat.leb (a / 10) (b / 10)) 12 13 = true.
Proof. split; [|vm_compute; auto]. split; [intros a b; rewrite !Nat.leb_le; lia|intros a b c; rewrite !Nat.leb_le; lia]. Qed.

Lemma comparable_agree {X} (preorder : X -> X -> bool) : total_preorder (fun a b => preorder a b = true) -> agree (comparable preorder) (fun a b => preorder a b = true).
Proof. intros T. split; intros a b; cbn; unfold C_lt, C_eq; [rewrite negb_false_iff; reflexivity|apply andb_true_iff]. Qed.

Section C49.
  Context {X K : Type} {EX : EqDec X}.
  Variables (ks : keys K) (kle : K -> K -> Prop) (key : X -> K).
  Hypothesis T : total_preorder kle.
  Hypothesis A : agree ks kle.
  Local Notation item := (item X K).

  Definition ile (a b : item) : Prop := let '(ka, ia, _) := a in let '(kb, ib, _) := b in kle ka kb /\ (kle kb ka -> ia <= ib).
  Lemma kle_refl k : kle k k.
  Proof. destruct (proj1 T k k); assumption. Qed.
  Lemma ile_refl a : ile a a.
  Proof. destruct a as [[k i] x]. cbn. split; [apply kle_refl|lia]. Qed.
  Lemma ile_trans a b c : ile a b -> ile b c -> ile a c.
  Proof.
    destruct a as [[ka ia] xa], b as [[kb ib] xb], c as [[kc ic] xc]. cbn. destruct T as [_ R]. intros [H1 H2] [H3 H4]. split; [apply (R _ kb); assumption|].
    intros H. assert (ia <= ib) by (apply H2, (R _ kc); assumption). assert (ib <= ic) by (apply H4, (R _ ka); assumption). lia.
  Qed.
  Lemma item_lt_le a b : item_lt ks a b = true -> ile a b.
  Proof using T A.
    clear key.
    destruct a as [[ka ia] xa], b as [[kb ib] xb]. cbn. destruct A as [A1 A2], T as [T1 _]. destruct (key_eq ks ka kb) eqn:E.
    - intros H. apply Nat.ltb_lt in H. apply A2 in E. split; [tauto|lia].
    - intros H. assert (N : ~ kle kb ka) by (intros N; apply A1 in N; congruence). split; [|tauto]. destruct (T1 ka kb); tauto.
  Qed.
  Lemma item_nlt_le a b : item_lt ks a b = false -> ile b a.
  Proof using T A.
    clear key.
    destruct a as [[ka ia] xa], b as [[kb ib] xb]. cbn. destruct A as [A1 A2], T as [T1 _]. destruct (key_eq ks ka kb) eqn:E.
    - intros H. apply Nat.ltb_ge in H. apply A2 in E. split; [tauto|lia].
    - intros H. assert (L : kle kb ka) by (apply A1, H). split; [exact L|]. intros L'. assert (key_eq ks ka kb = true) by (apply A2; auto). congruence.
  Qed.

  (** [L]: the items in the order of their indices *)
  Definition idx (a : item) : nat := snd (fst a).
  Definition ordered (L : list item) : Prop := StronglySorted (fun a b => idx a < idx b) L.
  Definition stores (h : heap X K) (l : list X) : Prop := is_heap ile (hp_data h) /\ exists L, Permutation (hp_data h) L /\ ordered L /\ map snd L = l /\
    forall a, In a L -> fst (fst a) = key (snd a) /\ idx a < hp_index h.
  Lemma stores_init l : stores (heap_init ks key l) l.
  Proof.
    unfold heap_init. destruct l as [|x0 l0]; [split; [intros p [|j] a b _ _ Ha; destruct p; discriminate|]; exists []; split; [reflexivity|]; split; [constructor|]; split; [reflexivity|intros a []]|].
    set (l := x0 :: l0). set (data := map _ _). destruct (heapify_spec (item_lt ks) ile ile_refl ile_trans item_lt_le item_nlt_le data) as [P H].
    split; [exact H|]. exists data. split; [exact P|]. cbn [hp_index]. subst data. rewrite map_length, combine_length, seq_length, Nat.min_id. clear P H. clearbody l.
    assert (G : forall n, let data := map (fun '(i, element) => (key element, i, element)) (combine (seq n (length l)) l) in
      ordered data /\ map snd data = l /\ forall a, In a data -> fst (fst a) = key (snd a) /\ n <= idx a < n + length l).
    { induction l as [|x l IH]; intros n; cbn; [split; [constructor|]; split; [reflexivity|intros a []]|]. destruct (IH (S n)) as (H1 & H2 & H3). split; [|split].
      - constructor; [exact H1|]. apply Forall_forall. intros a I. destruct (H3 a I) as [_ B]. unfold idx at 1. cbn. lia.
      - f_equal. exact H2.
      - intros a [<-|I]; [cbn; split; [reflexivity|lia]|]. destruct (H3 a I) as [E B]. split; [exact E|lia]. }
    destruct (G 0) as (H1 & H2 & H3). split; [exact H1|]. split; [exact H2|]. intros a I. destruct (H3 a I) as [E B]. split; [exact E|lia].
  Qed.
  Lemma ordered_snoc L a : ordered L -> (forall b, In b L -> idx b < idx a) -> ordered (L ++ [a]).
  Proof.
    induction L as [|b L IH]; intros O H; cbn; [repeat constructor|]. inversion O as [|? ? O1 O2]; subst. constructor; [apply IH; [exact O1|intros c I; apply H; right; exact I]|].
    apply Forall_app. split; [exact O2|]. constructor; [apply H; left; reflexivity|constructor].
  Qed.
  Lemma stores_push h l x : stores h l -> stores (heap_push ks key h x) (l ++ [x]).
  Proof.
    intros [H (L & P & O & <- & B)]. destruct (heappush_spec (item_lt ks) ile ile_trans item_lt_le item_nlt_le (hp_data h) (key x, hp_index h, x) H) as [P' H'].
    split; [exact H'|]. exists (L ++ [(key x, hp_index h, x)]). cbn [heap_push hp_data hp_index]. split; [rewrite P', P; apply Permutation_cons_append|]. split; [|split].
    - apply ordered_snoc; [exact O|]. intros b I. apply B, I.
    - rewrite map_app. reflexivity.
    - intros a I. apply in_app_iff in I. destruct I as [I|[<-|[]]]; [destruct (B a I); split; [assumption|lia]|cbn; split; [reflexivity|lia]].
  Qed.
  (** the least item, taken out of the ordered list *)
  Lemma take_min L m D : ordered L -> Permutation L (m :: D) -> (forall a, In a L -> fst (fst a) = key (snd a)) -> (forall y, In y L -> ile m y) ->
    exists L', Permutation D L' /\ ordered L' /\ first_min kle key (map snd L) (snd m) (map snd L') /\ (forall a, In a L' -> In a L).
  Proof.
    intros O P B M. assert (I : In m L) by (apply (Permutation_in _ (Permutation_sym P)); left; reflexivity). destruct (in_split _ _ I) as (La & Lb & ->).
    assert (Om : (forall a, In a La -> idx a < idx m) /\ ordered (La ++ Lb)).
    { clear -O. induction La as [|a La IH]; cbn in *; inversion O as [|? ? O1 O2]; subst; [split; [intros ? []|exact O1]|]. rewrite Forall_forall in O2. destruct (IH O1) as [H1 H2]. split.
      - intros b [<-|I]; [apply O2; apply in_app_iff; right; left; reflexivity|apply H1, I].
      - constructor; [exact H2|]. apply Forall_forall. intros b I. apply O2. apply in_app_iff in I. apply in_app_iff. cbn. tauto. }
    destruct Om as [Om O']. exists (La ++ Lb). split; [apply (Permutation_cons_inv (a := m)); rewrite <- P; symmetry; apply Permutation_middle|]. split; [exact O'|].
    assert (Km : fst (fst m) = key (snd m)) by (apply B, I). split.
    - exists (map snd La), (map snd Lb). split; [rewrite map_app; reflexivity|]. split; [apply map_app|]. split.
      + intros y Iy. apply in_map_iff in Iy. destruct Iy as (a & <- & Ia). assert (Ia' : In a (La ++ m :: Lb)) by (apply in_app_iff; auto). specialize (M a Ia'). specialize (Om a Ia). specialize (B a Ia').
        destruct a as [[ka ia] xa], m as [[km im] xm]. cbn in *. subst. destruct M as [_ M]. intros H. specialize (M H). unfold idx in Om. cbn in Om. lia.
      + intros y Iy. apply in_map_iff in Iy. destruct Iy as (a & <- & Ia). assert (Ia' : In a (La ++ m :: Lb)) by (apply in_app_iff; cbn; auto). specialize (M a Ia'). specialize (B a Ia').
        destruct a as [[ka ia] xa], m as [[km im] xm]. cbn in *. subst. apply M.
    - intros a Ia. apply in_app_iff in Ia. apply in_app_iff. cbn. tauto.
  Qed.
  Lemma stores_pop h l : stores h l -> (l = [] /\ stores (fst (heap_pop ks h)) [] /\ snd (heap_pop ks h) = Raise IndexError) \/
    exists x l', stores (fst (heap_pop ks h)) l' /\ snd (heap_pop ks h) = Ok x /\ first_min kle key l x l'.
  Proof.
    intros [H (L & P & O & <- & B)]. unfold heap_pop. destruct (hp_data h) as [|a0 d0] eqn:D.
    - left. apply Permutation_nil in P. subst L. split; [reflexivity|]. split; [|reflexivity]. split; [exact H|]. exists []. split; [reflexivity|]. split; [constructor|]. split; [reflexivity|intros a []].
    - right. rewrite <- D in *. destruct (heappop_spec (item_lt ks) ile ile_refl ile_trans item_lt_le item_nlt_le (hp_data h) H) as (m & d' & E & P' & H' & M); [congruence|]. rewrite E.
      destruct (take_min L m d' O) as (L' & Q1 & Q2 & Q3 & Q4); [rewrite <- P; exact P'|intros a I; apply B, I|intros y I; apply M, (Permutation_in _ (Permutation_sym P)), I|].
      destruct m as [[km im] xm]. cbn [fst snd] in *. exists xm, (map snd L'). split; [|split; [reflexivity|exact Q3]]. split; [exact H'|]. exists L'. split; [exact Q1|]. split; [exact Q2|]. split; [reflexivity|].
      intros a I. cbn [hp_index]. apply B, Q4, I.
  Qed.

  (** The outputs of a sequence of operations. *)
  Fixpoint run (h : heap X K) (ops : list (op X)) : list (res X) * heap X K :=
    match ops with
    | [] => ([], h)
    | Push x :: ops => run (heap_push ks key h x) ops
    | Pop :: ops => let '(h, o) := heap_pop ks h in let '(outs, h) := run h ops in (o :: outs, h)
    end.
  Lemma run_spec ops : forall h l, stores h l -> exists rest, served kle key l ops (fst (run h ops)) rest /\ stores (snd (run h ops)) rest.
  Proof.
    induction ops as [|[x|] ops IH]; intros h l S; cbn [run].
    - exists l. split; [constructor|exact S].
    - destruct (IH _ _ (stores_push h l x S)) as (rest & R1 & R2). exists rest. split; [constructor; exact R1|exact R2].
    - destruct (stores_pop h l S) as [(-> & S' & E)|(x & l' & S' & E & F)]; destruct (heap_pop ks h) as [h' o]; cbn [fst snd] in *; subst o; destruct (IH _ _ S') as (rest & R1 & R2);
        destruct (run h' ops) as [outs h'']; cbn [fst snd] in *; exists rest; (split; [|exact R2]); [apply served_empty; exact R1|apply (served_pop _ _ _ _ _ _ _ _ F R1)].
  Qed.
  Lemma insort_perm x (l : list item) : Permutation (insort (item_lt ks) x l) (x :: l).
  Proof. induction l as [|y l IH]; cbn; [reflexivity|]. destruct (item_lt ks y x); [|reflexivity]. rewrite IH. apply perm_swap. Qed.
  Lemma insort_sorted x (l : list item) : StronglySorted ile l -> StronglySorted ile (insort (item_lt ks) x l).
  Proof.
    induction l as [|y l IH]; intros H; cbn; [repeat constructor|]. inversion H as [|? ? H1 H2]; subst. destruct (item_lt ks y x) eqn:E.
    - constructor; [apply IH, H1|]. apply Forall_forall. intros z I. apply (Permutation_in _ (insort_perm x l)) in I. destruct I as [<-|I]; [apply item_lt_le, E|]. rewrite Forall_forall in H2. apply H2, I.
    - constructor; [exact H|]. apply item_nlt_le in E. constructor; [exact E|]. apply Forall_forall. intros z I. apply (ile_trans _ y); [exact E|]. rewrite Forall_forall in H2. apply H2, I.
  Qed.
  Lemma sorted_spec (l : list item) : Permutation (py_sorted (item_lt ks) l) l /\ StronglySorted ile (py_sorted (item_lt ks) l).
  Proof. induction l as [|x l [P S]]; cbn; [split; [reflexivity|constructor]|]. split; [rewrite insort_perm, P; reflexivity|apply insort_sorted, S]. Qed.
  Lemma iter_spec h l : stores h l -> served kle key l (repeat Pop (length l)) (map Ok (heap_iter ks h)) [] /\ heap_len h = length l /\ heap_bool h = negb (length l =? 0).
  Proof.
    intros [_ (L & P & O & <- & B)]. assert (EL : heap_len h = length (map snd L)) by (rewrite map_length; unfold heap_len; apply Permutation_length, P).
    split; [|split; [exact EL|unfold heap_bool; unfold heap_len in EL; rewrite EL; reflexivity]].
    unfold heap_iter, nsmallest_all. destruct (sorted_spec (hp_data h)) as [Q S]. apply (fun q => Permutation_trans q P) in Q. assert (B' : forall a, In a L -> fst (fst a) = key (snd a)) by (intros a I; apply B, I). clear P B EL.
    revert L Q O B'. induction (py_sorted (item_lt ks) (hp_data h)) as [|m D IH]; intros L Q O B'.
    - apply Permutation_nil in Q. subst L. constructor.
    - inversion S as [|? ? S1 S2]; subst. rewrite Forall_forall in S2. destruct (take_min L m D O) as (L' & Q1 & Q2 & Q3 & Q4); [symmetry; exact Q|exact B'| |].
      + intros y I. apply (Permutation_in _ (Permutation_sym Q)) in I. destruct I as [<-|I]; [apply ile_refl|apply S2, I].
      + assert (EL : length (map snd L) = Datatypes.S (length D)) by (rewrite map_length; symmetry; exact (Permutation_length Q)). rewrite EL. cbn [length repeat map]. apply (served_pop _ _ _ _ _ _ _ _ Q3).
        assert (EL1 : length D = length (map snd L')) by (rewrite map_length; exact (Permutation_length Q1)). rewrite EL1. apply (IH S1 L' Q1 Q2). intros a I. apply B', Q4, I.
  Qed.
End C49.

(** C49: the heap made from [elements] behaves as the queue which holds [elements] *)
Theorem C49_heap {X K} (ks : keys K) (kle : K -> K -> Prop) (key : X -> K) (elements : list X) (ops : list (op X)) : total_preorder kle -> agree ks kle ->
  exists rest, let '(outs, h) := run ks key (heap_init ks key elements) ops in
    served kle key elements ops outs rest /\
    served kle key rest (repeat Pop (length rest)) (map Ok (heap_iter ks h)) [] /\ heap_len h = length rest /\ heap_bool h = negb (length rest =? 0).
Proof.
  intros T A. destruct (run_spec ks kle key T A ops _ _ (stores_init ks kle key T A elements)) as (rest & R1 & R2). exists rest.
  destruct (run ks key (heap_init ks key elements) ops) as [outs h]. split; [exact R1|]. apply (iter_spec ks kle key T A), R2.
Qed.
(** The same with Comparable keys. *)
Theorem C49_comparable {X K} (preorder : K -> K -> bool) (key : X -> K) (elements : list X) (ops : list (op X)) : total_preorder (fun a b => preorder a b = true) ->
  exists rest, served (fun a b => preorder a b = true) key elements ops (fst (run (comparable preorder) key (heap_init (comparable preorder) key elements) ops)) rest.
Proof.
  intros T. destruct (C49_heap (comparable preorder) _ key elements ops T (comparable_agree _ T)) as (rest & H). exists rest.
  destruct (run _ _ _ _) as [outs h]. apply H.
Qed.

(** What [served] says: nothing is lost or duplicated, and the queue popped until it is empty is sorted. *)
Definition pushed {X} (ops : list (op X)) : list X := flat_map (fun o => match o with Push x => [x] | Pop => [] end) ops.
Definition popped {X} (outs : list (res X)) : list X := flat_map (fun o => match o with Ok x => [x] | Raise _ => [] end) outs.
Theorem C49_conservation {X K} (kle : K -> K -> Prop) (key : X -> K) l ops outs rest : served kle key l ops outs rest ->
  Permutation (l ++ pushed ops) (popped outs ++ rest).
Proof.
  induction 1 as [l|l x ops outs l' _ IH|l x l1 ops outs l' (a & b & -> & -> & _) _ IH|ops outs l' _ IH]; cbn.
  - rewrite app_nil_r. reflexivity.
  - rewrite <- app_assoc in IH. exact IH.
  - rewrite <- IH. rewrite <- !app_assoc. cbn. symmetry. apply Permutation_middle.
  - exact IH.
Qed.
Theorem C49_sorted {X K} (kle : K -> K -> Prop) (key : X -> K) l outs rest n : total_preorder kle -> served kle key l (repeat Pop n) outs rest ->
  StronglySorted (fun x y => kle (key x) (key y)) (popped outs).
Proof.
  intros [T R]. assert (RF : forall k, kle k k) by (intros k; destruct (T k k); assumption). revert l outs rest. induction n as [|n IH]; intros l outs rest S; cbn in S; inversion S as [|?|? x l1 ? ? ? F S'|? ? ? S']; subst; cbn; [constructor| |eapply IH; exact S'].
  constructor; [eapply IH; exact S'|]. apply Forall_forall. intros y I. apply C49_conservation in S'.
  assert (Iy : In y l1). { replace (pushed (repeat Pop n)) with (@nil X) in S' by (clear; induction n; cbn; auto). rewrite app_nil_r in S'. apply (Permutation_in _ (Permutation_sym S')), in_app_iff. auto. }
  destruct F as (a & b & -> & -> & F1 & F2). apply in_app_iff in Iy. destruct Iy as [Iy|Iy]; [|apply F2, Iy]. destruct (T (key x) (key y)) as [H|H]; [exact H|]. destruct (F1 y Iy H).
Qed.

(** keys: the tens digit; ties are popped in the order of insertion *)
Definition C49_keys : keys nat := mkKeys Nat.ltb Nat.eqb.
Example C49_example : fst (run C49_keys (fun x => x / 10) (heap_init C49_keys (fun x => x / 10) [35; 12; 31; 19; 11]) [Pop; Push 14; Pop; Push 5; Pop; Pop; Pop; Pop; Pop; Pop]) =
  [Ok 12; Ok 19; Ok 5; Ok 11; Ok 14; Ok 35; Ok 31; Raise IndexError].
Proof. vm_compute. reflexivity. Qed.
Example C49_agree : total_preorder Nat.le /\ agree C49_keys Nat.le.
Proof. split; split; intros; unfold Nat.le in *; cbn; try lia; [apply Nat.ltb_ge|rewrite Nat.eqb_eq; lia]. Qed.

Print Assumptions C49_heap.
Print Assumptions C49_comparable.
Print Assumptions C49_conservation.
Print Assumptions C49_sorted.
Print Assumptions C50_comparable.
Print Assumptions C50_trichotomy.
Print Assumptions C50_less.
