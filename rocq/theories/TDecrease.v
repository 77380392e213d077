(** Theorem C75 on Heap.decrease_key. *)
From Coq Require Import Sorted.
From Verif Require Import Heap HeapSpec HeapProofs DecreaseProofs THeap Base BaseProofs.

Lemma nth_ext_error {Y} (l l' : list Y) : (forall m, nth_error l m = nth_error l' m) -> l = l'.
Proof.
  revert l'. induction l as [|y l IH]; intros [|y' l'] H; [reflexivity|discriminate (H 0)|discriminate (H 0)|].
  pose proof (H 0) as H0. cbn in H0. injection H0 as ->. f_equal. apply IH. intros m. apply (H (S m)).
Qed.
Lemma nth_error_skipn {Y} (l : list Y) n m : nth_error (skipn n l) m = nth_error l (n + m).
Proof. revert l. induction n as [|n IH]; intros l; [reflexivity|]. destruct l; cbn; [destruct m; reflexivity|apply IH]. Qed.
Lemma nth_error_firstn {Y} (l : list Y) n m : m < n -> nth_error (firstn n l) m = nth_error l m.
Proof. revert l m. induction n as [|n IH]; intros l m L; [lia|]. destruct l; [reflexivity|]. destruct m; cbn; [reflexivity|apply IH; lia]. Qed.

Section C75.
  Context {X K : Type} {EX : EqDec X}.
  Variables (ks : keys K) (kle : K -> K -> Prop).
  Hypothesis T : total_preorder kle.
  Hypothesis A : agree ks kle.
  Local Notation item := (item X K).
  Local Notation ile := (ile kle).
  Local Notation ile_refl := (ile_refl kle T).
  Local Notation ile_trans := (ile_trans kle T).
  Local Notation item_lt_le := (item_lt_le ks kle T A).
  Local Notation item_nlt_le := (item_nlt_le ks kle T A).

  Definition entry (a : item) : K * X := (fst (fst a), snd a).
  Definition holds (h : heap X K) (q : list (K * X)) : Prop := is_heap ile (hp_data h) /\ exists L, Permutation (hp_data h) L /\ ordered L /\ map entry L = q /\
    forall a, In a L -> idx a < hp_index h.

  Lemma holds_init key l : holds (heap_init ks key l) (map (fun x => (key x, x)) l).
  Proof.
    destruct (stores_init ks kle key T A l) as [H (L & P & O & <- & B)]. split; [exact H|]. exists L. split; [exact P|]. split; [exact O|]. split; [|intros a I; apply B, I].
    rewrite map_map. apply map_ext_in. intros a I. unfold entry. destruct (B a I) as [-> _]. reflexivity.
  Qed.
  Lemma holds_push key h q x : holds h q -> holds (heap_push ks key h x) (q ++ [(key x, x)]).
  Proof.
    intros [H (L & P & O & <- & B)]. destruct (heappush_spec (item_lt ks) ile ile_trans item_lt_le item_nlt_le (hp_data h) (key x, hp_index h, x) H) as [P' H'].
    split; [exact H'|]. exists (L ++ [(key x, hp_index h, x)]). cbn [heap_push hp_data hp_index]. split; [rewrite P', P; apply Permutation_cons_append|]. split; [|split].
    - apply ordered_snoc; [exact O|]. intros b I. apply B, I.
    - rewrite map_app. reflexivity.
    - intros a I. apply in_app_iff in I. destruct I as [I|[<-|[]]]; [specialize (B a I); lia|cbn; lia].
  Qed.
  Lemma take_least L m D : ordered L -> Permutation L (m :: D) -> (forall y, In y L -> ile m y) ->
    exists L', Permutation D L' /\ ordered L' /\ first_least kle (map entry L) (entry m) (map entry L') /\ (forall a, In a L' -> In a L).
  Proof.
    intros O P M. assert (I : In m L) by (apply (Permutation_in _ (Permutation_sym P)); left; reflexivity). destruct (in_split _ _ I) as (La & Lb & ->).
    assert (Om : (forall a, In a La -> idx a < idx m) /\ ordered (La ++ Lb)).
    { clear -O. induction La as [|a La IH]; cbn in *; inversion O as [|? ? O1 O2]; subst; [split; [intros ? []|exact O1]|]. rewrite Forall_forall in O2. destruct (IH O1) as [H1 H2]. split.
      - intros b [<-|I]; [apply O2; apply in_app_iff; right; left; reflexivity|apply H1, I].
      - constructor; [exact H2|]. apply Forall_forall. intros b I. apply O2. apply in_app_iff in I. apply in_app_iff. cbn. tauto. }
    destruct Om as [Om O']. exists (La ++ Lb). split; [apply (Permutation_cons_inv (a := m)); rewrite <- P; symmetry; apply Permutation_middle|]. split; [exact O'|]. split.
    - exists (map entry La), (map entry Lb). split; [rewrite map_app; reflexivity|]. split; [apply map_app|]. split.
      + intros y Iy. apply in_map_iff in Iy. destruct Iy as (a & <- & Ia). assert (Ia' : In a (La ++ m :: Lb)) by (apply in_app_iff; auto). specialize (M a Ia'). specialize (Om a Ia).
        destruct a as [[ka ia] xa], m as [[km im] xm]. cbn in *. destruct M as [_ M]. intros H. specialize (M H). unfold idx in Om. cbn in Om. lia.
      + intros y Iy. apply in_map_iff in Iy. destruct Iy as (a & <- & Ia). assert (Ia' : In a (La ++ m :: Lb)) by (apply in_app_iff; cbn; auto). specialize (M a Ia').
        destruct a as [[ka ia] xa], m as [[km im] xm]. cbn in *. apply M.
    - intros a Ia. apply in_app_iff in Ia. apply in_app_iff. cbn. tauto.
  Qed.
  Lemma holds_pop h q : holds h q -> (q = [] /\ holds (fst (heap_pop ks h)) [] /\ snd (heap_pop ks h) = Raise IndexError) \/
    exists e q', holds (fst (heap_pop ks h)) q' /\ snd (heap_pop ks h) = Ok (snd e) /\ first_least kle q e q'.
  Proof.
    intros [H (L & P & O & <- & B)]. unfold heap_pop. destruct (hp_data h) as [|a0 d0] eqn:D.
    - left. apply Permutation_nil in P. subst L. split; [reflexivity|]. split; [|reflexivity]. split; [exact H|]. exists []. split; [reflexivity|]. split; [constructor|]. split; [reflexivity|intros a []].
    - right. rewrite <- D in *. destruct (heappop_spec (item_lt ks) ile ile_refl ile_trans item_lt_le item_nlt_le (hp_data h) H) as (m & d' & E & P' & H' & M); [congruence|]. rewrite E.
      destruct (take_least L m d' O) as (L' & Q1 & Q2 & Q3 & Q4); [rewrite <- P; exact P'|intros y I; apply M, (Permutation_in _ (Permutation_sym P)), I|].
      destruct m as [[km im] xm]. exists (entry (km, im, xm)), (map entry L'). split; [|split; [reflexivity|exact Q3]]. split; [exact H'|]. exists L'. split; [exact Q1|]. split; [exact Q2|]. split; [reflexivity|].
      intros a I. cbn [hp_index]. apply B, Q4, I.
  Qed.

  (** decrease_key *)
  Definition renew (k : K) (x : X) (a : item) : item := if eqb x (snd a) then (k, idx a, x) else a.
  Lemma renew_idem k x a : renew k x (renew k x a) = renew k x a.
  Proof. unfold renew. destruct (eqb_spec x (snd a)) as [E|N]; cbn; [rewrite eqb_refl; reflexivity|]. destruct (eqb_spec x (snd a)); [contradiction|reflexivity]. Qed.
  Lemma renew_idx k x a : idx (renew k x a) = idx a.
  Proof. unfold renew. destruct (eqb x (snd a)); reflexivity. Qed.
  Lemma map_upd (g : item -> item) (d : list item) i a b : nth_error d i = Some a -> g b = g a -> map g (upd d i b) = map g d.
  Proof. revert i; induction d as [|c d IH]; intros [|i] H E; cbn in *; try discriminate; [injection H as ->; congruence|]. f_equal. apply (IH i H E). Qed.

  Lemma lt_trans' (a b c : item) : item_lt ks a b = true -> item_lt ks b c = true -> item_lt ks a c = true.
  Proof.
    destruct a as [[ka ia] xa], b as [[kb ib] xb], c as [[kc ic] xc]. destruct A as [A1 A2], T as [T1 T2]. unfold item_lt.
    assert (N : forall u v, key_lt ks u v = true <-> ~ kle v u) by (intros u v; rewrite <- A1; destruct (key_lt ks u v); split; [discriminate|reflexivity|discriminate|intros H; destruct (H eq_refl)]).
    assert (Q : forall u v, key_eq ks u v = false -> ~ (kle u v /\ kle v u)) by (intros u v H1 H2; apply A2 in H2; congruence).
    destruct (key_eq ks ka kb) eqn:E1, (key_eq ks kb kc) eqn:E2, (key_eq ks ka kc) eqn:E3; rewrite ?N, ?Nat.ltb_lt; intros H1 H2; try lia;
      repeat match goal with H : key_eq ks _ _ = true |- _ => apply A2 in H; destruct H | H : key_eq ks _ _ = false |- _ => apply Q in H end; try tauto.
    - exfalso. apply E3. split; [apply (T2 _ kb)|apply (T2 _ kb)]; assumption.
    - exfalso. apply E2. split; [apply (T2 _ ka)|apply (T2 _ ka)]; assumption.
    - intros H5. apply H2. apply (T2 _ ka); assumption.
    - exfalso. apply E1. split; [apply (T2 _ kc)|apply (T2 _ kc)]; assumption.
    - intros H5. apply H1. apply (T2 _ kc); assumption.
    - exfalso. destruct (T1 ka kb) as [L|L]; [|tauto]. apply H2. apply (T2 _ ka); assumption.
    - intros H5. destruct (T1 ka kb) as [L|L]; [|tauto]. apply H2. apply (T2 _ ka); assumption.
  Qed.
  Lemma lt_asym' (a b : item) : item_lt ks a b = true -> item_lt ks b a = false.
  Proof.
    intros H1. destruct (item_lt ks b a) eqn:H2; [|reflexivity]. pose proof (item_lt_le _ _ H1) as L1. pose proof (item_lt_le _ _ H2) as L2. exfalso.
    destruct a as [[ka ia] xa], b as [[kb ib] xb]. cbn in L1, L2. destruct L1 as [L1 L1'], L2 as [L2 L2']. specialize (L1' L2). specialize (L2' L1). cbn in H1. destruct A as [_ A2].
    rewrite (proj2 (A2 ka kb)) in H1 by auto. apply Nat.ltb_lt in H1. lia.
  Qed.
  Lemma lt_iff (a b : item) : idx a <> idx b -> (item_lt ks a b = true <-> ile a b).
  Proof.
    intros N. split; [apply item_lt_le|]. intros L. destruct (item_lt ks a b) eqn:E; [reflexivity|]. apply item_nlt_le in E. destruct a as [[ka ia] xa], b as [[kb ib] xb]. cbn in *. unfold idx in N. cbn in N.
    destruct L as [L1 L2], E as [E1 E2]. specialize (L2 E1). specialize (E2 L1). lia.
  Qed.
  Lemma heap_strict (d : list item) : is_heap ile d -> NoDup (map idx d) -> strict (item_lt ks) d.
  Proof.
    intros H ND p j a b Dj Nj Ha Hb. apply lt_iff.
    - intros E. apply Nj. eapply NoDup_nth_error; [exact ND|rewrite map_length; apply nth_lt in Ha; exact Ha|]. rewrite !nth_error_map, Ha, Hb. cbn. congruence.
    - clear Nj ND. revert b Hb. induction Dj as [|q j Dj IH C]; intros b Hb; [assert (a = b) as -> by congruence; apply ile_refl|].
      destruct (lt_nth d q) as [c Hc]; [apply nth_lt in Hb; unfold child in C; lia|]. apply (ile_trans _ c); [apply IH, Hc|]. apply (H q j); [lia|exact C|exact Hc|exact Hb].
  Qed.

  Lemma decrease_data (key : X -> K) (D : list item) x : is_heap ile D -> NoDup (map idx D) ->
    ((forall a, In a D -> snd a = x -> kle (key x) (fst (fst a))) \/ (forall i j a b, nth_error D i = Some a -> nth_error D j = Some b -> snd a = x -> snd b = x -> i = j)) ->
    is_heap ile (decrease_loop ks key (length D) 0 D x) /\ Permutation (decrease_loop ks key (length D) 0 D x) (map (renew (key x) x) D).
  Proof.
    intros HD ND CT. set (g := renew (key x) x).
    assert (G : forall n i data, length data = length D -> n + i = length D -> is_heap ile data -> Permutation (map g data) (map g D) ->
      (forall j a, j < i -> nth_error data j = Some a -> g a = a) ->
      ((forall a, In a data -> snd a = x -> kle (key x) (fst (fst a))) \/ (forall i j a b, nth_error data i = Some a -> nth_error data j = Some b -> snd a = x -> snd b = x -> i = j) \/ (forall a, In a data -> g a = a)) ->
      is_heap ile (decrease_loop ks key n i data x) /\ Permutation (decrease_loop ks key n i data x) (map g D)).
    { induction n as [|n IH]; intros i data L Ei HP P N C; cbn [decrease_loop].
      - split; [exact HP|]. rewrite <- P. replace (map g data) with data; [reflexivity|]. symmetry. transitivity (map (fun a => a) data); [|apply map_id]. apply map_ext_in. intros a I.
        apply In_nth_error in I. destruct I as [j Hj]. apply (N j); [apply nth_lt in Hj; lia|exact Hj].
      - destruct (lt_nth data i) as [a Hi]; [lia|]. rewrite Hi. destruct a as [[k index] y]. destruct (eqb_spec x y) as [<-|Ny].
        + assert (Ga : g (k, index, x) = (key x, index, x)) by (unfold g, renew; cbn; rewrite eqb_refl; reflexivity). rewrite <- Ga.
          set (a := (k, index, x)) in *. pose proof (nth_lt _ _ _ Hi) as Li.
          destruct (heapify_spec (item_lt ks) ile ile_refl ile_trans item_lt_le item_nlt_le (upd data i (g a))) as [P1 P2].
          assert (EU : map g (upd data i (g a)) = map g data) by (apply (map_upd g data i a); [exact Hi|apply renew_idem]).
          assert (NDd : NoDup (map idx data)).
          { assert (EI : forall d, map idx (map g d) = map idx d) by (intros d; rewrite map_map; apply map_ext; intros b; apply renew_idx). rewrite <- (EI data). apply (Permutation_NoDup (Permutation_map idx (Permutation_sym P))). rewrite EI. exact ND. }
          assert (IU : forall b, In b (upd data i (g a)) -> b = g a \/ exists j, j <> i /\ nth_error data j = Some b).
          { intros b I. apply In_nth_error in I. destruct I as [j Hj]. rewrite nth_upd in Hj. destruct (Nat.eqb_spec j i) as [Ej|Nj]; [destruct (Nat.ltb_spec i (length data)); [left; congruence|lia]|right; eauto]. }
          assert (ALL : (forall b, In b (upd data i (g a)) -> g b = b) -> forall b, In b (heapify (item_lt ks) (upd data i (g a))) -> g b = b) by (intros H b I; apply H, (Permutation_in _ P1), I).
          apply IH; [rewrite (Permutation_length P1), length_upd; exact L|lia|exact P2|rewrite (Permutation_map g P1), EU; exact P| |].
          * intros j b Lj Hj. destruct C as [C|[C|C]].
            -- (* what was visited remains before i + 1 *)
               assert (KEEP : forall j, i < j -> nth_error (heapify (item_lt ks) (upd data i (g a))) j = nth_error data j).
               { apply (heapify_decrease (item_lt ks) lt_trans' lt_asym' data i a (g a)).
                 - apply heap_strict; assumption.
                 - exact Hi.
                 - intros b0 Hb. assert (KL : kle (key x) k) by (apply (C a); [apply (nth_error_In _ _ Hi)|reflexivity]). pose proof (item_lt_le _ _ Hb) as LB. rewrite Ga. destruct b0 as [[kb ib] xb]. destruct A as [A1 A2], T as [T1 T2]. cbn in LB, Hb |- *.
                   destruct LB as [LB1 LB2]. assert (KB : kle (key x) kb) by (apply (T2 _ k); assumption). destruct (key_eq ks (key x) kb) eqn:E1.
                   + apply A2 in E1. assert (E2 : key_eq ks k kb = true) by (apply A2; split; [exact LB1|apply (T2 _ (key x)); tauto]). rewrite E2 in Hb. exact Hb.
                   + destruct (key_lt ks (key x) kb) eqn:E2; [reflexivity|]. apply A1 in E2. assert (key_eq ks (key x) kb = true) by (apply A2; auto). congruence.
                 - intros j0 b0 Nj0 Hb0 F. apply lt_iff; [|apply item_nlt_le, F]. unfold g. rewrite renew_idx. intros E. apply Nj0. symmetry. eapply NoDup_nth_error; [exact NDd|rewrite map_length; exact Li|].
                   rewrite !nth_error_map, Hi, Hb0. exact (f_equal Some E). }
               assert (PF : Permutation (firstn (S i) (heapify (item_lt ks) (upd data i (g a)))) (firstn (S i) (upd data i (g a)))).
               { apply (Permutation_app_inv_r (skipn (S i) (upd data i (g a)))). rewrite firstn_skipn. replace (skipn (S i) (upd data i (g a))) with (skipn (S i) (heapify (item_lt ks) (upd data i (g a)))); [rewrite firstn_skipn; exact P1|].
                 apply nth_ext_error. intros m. rewrite !nth_error_skipn. rewrite KEEP by lia. rewrite nth_upd_other by lia. reflexivity. }
               assert (I : In b (firstn (S i) (upd data i (g a)))).
               { apply (Permutation_in _ PF). apply nth_error_In with (n := j). rewrite nth_error_firstn by lia. exact Hj. }
               apply In_nth_error in I. destruct I as [m Hm]. assert (Lm : m < S i) by (apply nth_lt in Hm; rewrite firstn_length in Hm; lia). rewrite nth_error_firstn in Hm by exact Lm.
               destruct (Nat.eq_dec m i) as [->|Nm]; [rewrite nth_upd_same in Hm by exact Li; injection Hm as <-; apply renew_idem|]. rewrite nth_upd_other in Hm by exact Nm. apply (N m); [lia|exact Hm].
            -- apply ALL; [|apply (nth_error_In _ _ Hj)]. intros c I. destruct (IU c I) as [->|(m & Nm & Hm)]; [apply renew_idem|]. unfold g, renew. destruct (eqb_spec x (snd c)) as [E|]; [|reflexivity].
               destruct Nm. apply (C m i c a Hm Hi); [auto|reflexivity].
            -- apply ALL; [|apply (nth_error_In _ _ Hj)]. intros c I. destruct (IU c I) as [->|(m & Nm & Hm)]; [apply renew_idem|]. apply C, (nth_error_In _ _ Hm).
          * destruct C as [C|[C|C]].
            -- left. intros b I. apply (Permutation_in _ P1) in I. destruct (IU b I) as [->|(m & Nm & Hm)]; [intros _; rewrite Ga; apply (kle_refl kle T)|]. apply C, (nth_error_In _ _ Hm).
            -- right; right. apply ALL. intros c I. destruct (IU c I) as [->|(m & Nm & Hm)]; [apply renew_idem|]. unfold g, renew. destruct (eqb_spec x (snd c)) as [E|]; [|reflexivity].
               destruct Nm. apply (C m i c a Hm Hi); [auto|reflexivity].
            -- right; right. apply ALL. intros c I. destruct (IU c I) as [->|(m & Nm & Hm)]; [apply renew_idem|]. apply C, (nth_error_In _ _ Hm).
        + apply IH; [exact L|lia|exact HP|exact P| |].
          * intros j b Lj Hj. destruct (Nat.eq_dec j i) as [->|Nj]; [|apply (N j); [lia|exact Hj]]. rewrite Hi in Hj. injection Hj as <-. unfold g, renew. cbn. destruct (eqb_spec x y); [contradiction|reflexivity].
          * exact C. }
    apply G; [reflexivity|lia|exact HD|reflexivity|intros j a L; lia|]. destruct CT as [C|C]; [left; exact C|right; left; exact C].
  Qed.

  Lemma ordered_nodup L : ordered L -> NoDup (map (@idx X K) L).
  Proof.
    induction 1 as [|a L O IH F]; cbn; constructor; [|exact IH]. intros I. apply in_map_iff in I. destruct I as (b & E & I). rewrite Forall_forall in F. specialize (F b I). lia.
  Qed.
  Lemma holds_decrease key h q x : holds h q -> may_decrease kle key q x -> holds (heap_decrease_key ks key h x) (set_key x (key x) q).
  Proof.
    intros [H (L & P & O & <- & B)] M. destruct (decrease_data key (hp_data h) x H) as [H' P'].
    - apply (Permutation_NoDup (Permutation_map (@idx X K) (Permutation_sym P))). apply ordered_nodup, O.
    - destruct M as [M|M]; [left|right].
      + intros a I E. apply M. apply in_map_iff. exists a. split; [unfold entry; rewrite E; reflexivity|apply (Permutation_in _ P), I].
      + intros i j a b Hi Hj Ea Eb. destruct (Nat.eq_dec i j) as [|N]; [assumption|exfalso].
        assert (I : exists a0 b0 R, Permutation (hp_data h) (a0 :: b0 :: R) /\ snd a0 = x /\ snd b0 = x).
        { exists a, b. destruct (nth_error_split _ _ Hi) as (l1 & l2 & E1 & E2). rewrite E1 in Hj |- *. assert (Ib : In b (l1 ++ l2)).
          { destruct (Nat.lt_trichotomy j (length l1)) as [Lj|[Lj|Lj]]; [|lia|].
            - rewrite nth_error_app1 in Hj by exact Lj. apply in_app_iff. left. apply (nth_error_In _ _ Hj).
            - rewrite nth_error_app2 in Hj by lia. apply in_app_iff. right. destruct (j - length l1) as [|m] eqn:Em; [lia|]. apply (nth_error_In _ m Hj). }
          destruct (in_split _ _ Ib) as (l3 & l4 & E3). exists (l3 ++ l4). split; [|auto]. rewrite <- Permutation_middle. constructor. rewrite E3. symmetry. apply Permutation_middle. }
        destruct I as (a0 & b0 & R & PR & Ea0 & Eb0). rewrite P in PR. assert (Ia : In a0 L) by (apply (Permutation_in _ (Permutation_sym PR)); left; reflexivity).
        destruct (in_split _ _ Ia) as (La & Lb & ->). rewrite <- Permutation_middle in PR. apply Permutation_cons_inv in PR.
        assert (Ib : In b0 (La ++ Lb)) by (apply (Permutation_in _ (Permutation_sym PR)); left; reflexivity).
        apply (M (map entry La) (fst (fst a0)) (map entry Lb) (fst (fst b0))); [rewrite map_app; cbn [map]; f_equal; f_equal; unfold entry; rewrite Ea0; reflexivity|].
        rewrite <- map_app. apply in_map_iff. exists b0. split; [unfold entry; rewrite Eb0; reflexivity|exact Ib].
    - split; [exact H'|]. exists (map (renew (key x) x) L). cbn [heap_decrease_key hp_data hp_index]. split; [rewrite P'; apply Permutation_map, P|]. split; [|split].
      + clear -O. induction O as [|a L O IH F]; cbn; constructor; [exact IH|]. apply Forall_forall. intros b I. apply in_map_iff in I. destruct I as (c & <- & I). rewrite !renew_idx. rewrite Forall_forall in F. apply F, I.
      + unfold set_key. rewrite !map_map. apply map_ext. intros a. unfold renew, entry. cbn. destruct (eqb x (snd a)); reflexivity.
      + intros a I. apply in_map_iff in I. destruct I as (b & <- & I). rewrite renew_idx. apply B, I.
  Qed.

  (** The outputs of a sequence of operations. *)
  Fixpoint qrun (key : X -> K) (h : heap X K) (ops : list (qop X K)) : list (res X) * heap X K :=
    match ops with
    | [] => ([], h)
    | QRekey key' :: ops => qrun key' h ops
    | QPush x :: ops => qrun key (heap_push ks key h x) ops
    | QPop :: ops => let '(h, o) := heap_pop ks h in let '(outs, h) := qrun key h ops in (o :: outs, h)
    | QDecrease x :: ops => qrun key (heap_decrease_key ks key h x) ops
    end.
  Lemma qrun_spec ops : forall key h q, holds h q -> respected kle key q ops -> exists key' rest, serves kle key q ops (fst (qrun key h ops)) key' rest /\ holds (snd (qrun key h ops)) rest.
  Proof.
    induction ops as [|[key'|x| |x] ops IH]; intros key h q S R; cbn [qrun].
    - exists key, q. split; [constructor|exact S].
    - destruct (IH key' h q S) as (k & rest & R1 & R2); [intros ops1 x ops2 outs f' q' -> E; apply (R (QRekey key' :: ops1) x ops2 outs f' q' eq_refl); constructor; exact E|].
      exists k, rest. split; [constructor; exact R1|exact R2].
    - destruct (IH key _ _ (holds_push key h q x S)) as (k & rest & R1 & R2); [intros ops1 y ops2 outs f' q' -> E; apply (R (QPush x :: ops1) y ops2 outs f' q' eq_refl); constructor; exact E|].
      exists k, rest. split; [constructor; exact R1|exact R2].
    - destruct (holds_pop h q S) as [(-> & S' & E)|(e & q1 & S' & E & F)]; destruct (heap_pop ks h) as [h' o]; cbn [fst snd] in *; subst o.
      + destruct (IH key _ _ S') as (k & rest & R1 & R2); [intros ops1 y ops2 outs f' q' -> E; apply (R (QPop :: ops1) y ops2 (Raise IndexError :: outs) f' q' eq_refl); constructor; exact E|].
        destruct (qrun key h' ops) as [outs h'']. cbn [fst snd] in *. exists k, rest. split; [constructor; exact R1|exact R2].
      + destruct (IH key _ _ S') as (k & rest & R1 & R2); [intros ops1 y ops2 outs f' q' -> E; apply (R (QPop :: ops1) y ops2 (Ok (snd e) :: outs) f' q' eq_refl); apply (serves_pop _ _ _ _ _ _ _ _ _ F E)|].
        destruct (qrun key h' ops) as [outs h'']. cbn [fst snd] in *. exists k, rest. split; [apply (serves_pop _ _ _ _ _ _ _ _ _ F R1)|exact R2].
    - destruct (IH key _ _ (holds_decrease key h q x S (R [] x ops [] key q eq_refl (serves_nil _ _ _)))) as (k & rest & R1 & R2); [intros ops1 y ops2 outs f' q' -> E; apply (R (QDecrease x :: ops1) y ops2 outs f' q' eq_refl); constructor; exact E|].
      exists k, rest. split; [constructor; exact R1|exact R2].
  Qed.
End C75.

(** C75: as long as the contract of decrease_key is respected, the heap made from [elements] behaves as the queue of their
    keys *)
Theorem C75_decrease_key {X K} {EX : EqDec X} (ks : keys K) (kle : K -> K -> Prop) (key : X -> K) (elements : list X) (ops : list (qop X K)) :
  total_preorder kle -> agree ks kle -> respected kle key (map (fun x => (key x, x)) elements) ops ->
  exists key' rest, let '(outs, h) := qrun ks key (heap_init ks key elements) ops in
    serves kle key (map (fun x => (key x, x)) elements) ops outs key' rest /\ heap_len h = length rest.
Proof.
  intros T A R. destruct (qrun_spec ks kle T A ops key _ _ (holds_init ks kle T A key elements) R) as (k & rest & R1 & R2). exists k, rest.
  destruct (qrun ks key (heap_init ks key elements) ops) as [outs h]. split; [exact R1|]. destruct R2 as [_ (L & P & _ & <- & _)]. rewrite map_length. apply Permutation_length, P.
Qed.
(** Without the contract: 1 is twice in the queue, its key grows from 0 to 9 and 2 has the key 5. The second entry takes
    the place that was just visited and keeps its key: 1 is popped before 2. *)
Definition C75_old (x : nat) : nat := if x =? 1 then 0 else 5.
Definition C75_new (x : nat) : nat := if x =? 1 then 9 else 5.
Definition C75_ops : list (qop nat nat) := [QRekey C75_new; QDecrease 1; QPop; QPop; QPop].
Theorem C75_contract_needed : fst (qrun C49_keys C75_old (heap_init C49_keys C75_old [1; 1; 2]) C75_ops) = [Ok 1; Ok 2; Ok 1] /\
  forall key' rest, ~ serves Nat.le C75_old (map (fun x => (C75_old x, x)) [1; 1; 2]) C75_ops [Ok 1; Ok 2; Ok 1] key' rest.
Proof.
  split; [vm_compute; reflexivity|]. intros key' rest H. unfold C75_ops in H. inversion H as [|? ? ? ? ? ? ? H1| | | |]; subst. inversion H1 as [| | | | |? ? ? ? ? ? ? H2]; subst. cbn in H2.
  inversion H2 as [| | |? ? e q1 ? ? ? ? F H3| |]; subst. destruct F as (a & b & E & _ & F1 & F2). cbn in *.
  destruct e as [ke xe]. cbn in *. subst xe.
  destruct a as [|a0 [|a1 [|a2 [|a3 a]]]]; cbn in E; inversion E; subst; specialize (F2 (5, 2) ltac:(cbn; auto)); cbn in F2; unfold Nat.le in F2; lia.
Qed.
(** The contract is met: 31 is twice in the queue and its key falls from 3 to 1; it is popped between 12 and 19, which are
    older and younger *)
Definition C75_key (x : nat) : nat := if x =? 31 then 1 else x / 10.
Example C75_example : fst (qrun C49_keys (fun x => x / 10) (heap_init C49_keys (fun x => x / 10) [35; 12; 31; 19; 21; 31]) [QRekey C75_key; QDecrease 31; QPop; QPush 5; QPop; QPop; QPop; QPop; QPop; QPop; QPop]) =
  [Ok 12; Ok 5; Ok 31; Ok 19; Ok 31; Ok 21; Ok 35; Raise IndexError].
Proof. vm_compute. reflexivity. Qed.
Example C75_respected : respected Nat.le (fun x => x / 10) (map (fun x => (x / 10, x)) [35; 12; 31; 19; 21; 31]) [QRekey C75_key; QDecrease 31; QPop].
Proof.
  intros ops1 x ops2 outs f' q' E S. destruct ops1 as [|o1 [|o2 [|o3 [|o4 ops1]]]]; cbn in E; try discriminate; injection E; intros; subst; try discriminate.
  inversion S as [|? ? ? ? ? ? ? S1| | | |]; subst. inversion S1; subst. left. intros k I. cbn in I. unfold Nat.le.
  repeat (destruct I as [I|I]; [try discriminate I; injection I as <-; vm_compute; lia|]). destruct I.
Qed.

Print Assumptions C75_decrease_key.
Print Assumptions C75_contract_needed.
