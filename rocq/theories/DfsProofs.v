(** Lemmas on the calls of depth_first_search. *)
From Verif Require Import Base BaseProofs Search SearchSpec SearchProofs SearchProofs2 DfsSpec.
#[local] Arguments dkeys : simpl never.

Section Run.
  Context {E : Type}.
  Variables (out_edges : nat -> list E) (target source : E -> nat) (if_push : E -> bool).
  Hypothesis SRC : forall u e, In e (out_edges u) -> source e = u.
  Notation u_edges := (u_edges out_edges if_push).
  Notation asks := (@asks E out_edges).
  Notation next := (next out_edges target if_push).
  Notation ev := (event E).
  Notation vrun := (vrun out_edges target if_push).
  Notation eruns := (eruns out_edges target if_push).
  Notation down := (@down E source target).
  Notation fresh := (fresh out_edges target if_push).
  Notation legal := (legal out_edges source target if_push).

  (** ** Sources *)
  Lemma run_src :
    (forall v c a t c', vrun v c a t c' -> forall e, In e (examined t) -> In (source e) (discovered t) /\ next (source e) (target e)) /\
    (forall u es c t c', eruns u es c t c' -> incl es (u_edges u) -> forall e, In e (examined t) -> (source e = u \/ In (source e) (discovered t)) /\ next (source e) (target e)).
  Proof.
    assert (X : forall u e, In e (u_edges u) -> source e = u /\ next (source e) (target e)).
    { intros u e I. pose proof (u_edges_src out_edges source if_push SRC u e I) as S. split; [exact S|]. rewrite S. apply In_u_edges, I. }
    split.
    - intros v c a t c' R e I. destruct (proj1 (run_edges out_edges target if_push) _ _ _ _ _ R) as (P & _). apply (Permutation_in _ P) in I. apply in_flat_map in I.
      destruct I as (u & Iu & I). destruct (X u e I) as [S N]. split; [rewrite S; exact Iu|exact N].
    - intros u es c t c' R IN e I. destruct (proj2 (run_edges out_edges target if_push) _ _ _ _ _ R) as (P & _). apply (Permutation_in _ P) in I. apply in_app_or in I. destruct I as [I|I].
      + destruct (X u e (IN e I)) as [S N]. auto.
      + apply in_flat_map in I. destruct I as (w & Iw & I). destruct (X w e I) as [S N]. split; [right; rewrite S; exact Iw|exact N].
  Qed.
  Lemma tree_examined c t c' e : @facts E c t c' -> In e (tree_edges t) -> In e (examined t).
  Proof. intros F I. apply (Permutation_in _ (Permutation_sym (f_class _ _ _ F))). apply in_or_app. left. exact I. Qed.

  (** ** The white vertices are those not discovered *)
  Definition whites (c : colors) (p : list ev) : Prop := forall v, color_of c v = WHITE <-> ~ In v (discovered p).
  Lemma whites_run c p t c' : facts c t c' -> whites c p -> whites c' (p ++ t).
  Proof.
    intros F H v. rewrite disc_app, in_app_iff. destruct (in_dec' v (discovered t)) as [I|I].
    - rewrite (proj2 (f_disc _ _ _ F v I)). split; [discriminate|tauto].
    - rewrite (f_other _ _ _ F v I), (H v). tauto.
  Qed.
  Lemma whites_silent c p a : discovered a = [] -> whites c p -> whites c (p ++ a).
  Proof. intros D H v. rewrite disc_app, D, app_nil_r. apply H. Qed.
  Lemma whites_disc c p v a : discovered a = [] -> color_of c v = WHITE -> whites c p -> whites (dset c v GRAY) (p ++ Discover v :: a).
  Proof.
    intros D W H w. change (Discover v :: a) with ([Discover v] ++ a). rewrite !disc_app, D, app_nil_r, in_app_iff. cbn. rewrite color_dset. destruct (eqb_spec w v) as [->|N].
    - split; [discriminate|tauto].
    - rewrite (H w). intuition congruence.
  Qed.

  Lemma steps_closed (R : nat -> nat -> Prop) (P : nat -> Prop) x y : (forall a b, P a -> R a b -> P b) -> P x -> steps R x y -> P y.
  Proof. intros H Px S. induction S as [x|x y z D S IH]; [exact Px|]. apply IH. apply (H x y Px D). Qed.

  (** ** Intervals *)
  Definition interval (p t : list ev) (u : nat) : Prop := exists t1 t2 t3, t = t1 ++ Discover u :: t2 ++ Finish u :: t3 /\
    Permutation (finished t2) (discovered t2) /\ (forall v, In v (u :: discovered t2) <-> steps (down t) u v) /\
    (forall v, In v (u :: discovered t2) <-> steps (fresh (p ++ t1)) u v).

  Lemma interval_in p l t r u : incl (map target (tree_edges t)) (discovered t) ->
    (forall e, In e (tree_edges (l ++ t ++ r)) -> In (source e) (discovered t) -> In e (tree_edges t)) ->
    In u (discovered t) -> interval (p ++ l) t u -> interval p (l ++ t ++ r) u.
  Proof.
    intros TT TS Iu (t1 & t2 & t3 & E1 & PF & HD & HF). exists (l ++ t1), t2, (t3 ++ r). split; [rewrite E1, <- !app_assoc; cbn; rewrite <- !app_assoc; reflexivity|]. split; [exact PF|]. split; [|intros v; rewrite app_assoc; apply HF].
    intros v. rewrite HD. split; intros S.
    - revert S. apply steps_sub. intros x y (e & Ie & Z). exists e. split; [|exact Z]. rewrite !tree_app, !in_app_iff. auto.
    - induction S as [u|u y z (e & Ie & S & Tg) R IH]; [constructor|].
      assert (Ie' : In e (tree_edges t)) by (apply TS; [exact Ie|rewrite S; exact Iu]). econstructor; [exists e; split; [exact Ie'|split; [exact S|exact Tg]]|].
      (* the suffix of the path does not need the interval *)
      clear IH HD HF PF E1 Iu. assert (Iy : In y (discovered t)) by (rewrite <- Tg; apply TT, in_map, Ie'). clear u e Ie S Tg Ie'.
      revert Iy. induction R as [y|y y' z (e & Ie & S & Tg) R IH]; intros Iy; [constructor|].
      assert (Ie' : In e (tree_edges t)) by (apply TS; [exact Ie|rewrite S; exact Iy]). econstructor; [exists e; split; [exact Ie'|split; [exact S|exact Tg]]|].
      apply IH. rewrite <- Tg. apply TT, in_map, Ie'.
  Qed.

  Lemma whole_interval v c a t c' p : Forall is_ask a -> color_of c v = WHITE -> eruns v (u_edges v) (dset c v GRAY) t c' -> whites c p -> interval p (Discover v :: a ++ t ++ [Finish v]) v.
  Proof.
    intros A W R H. set (T := Discover v :: a ++ t ++ [Finish v]). assert (RV : vrun v c a T (dset c' v BLACK)) by (constructor; assumption).
    destruct (vproj v a t A) as (P1 & P2 & P3 & P4 & P5 & P6). fold T in P1, P2, P3, P4.
    exists [], (a ++ t), []. split; [unfold T; cbn; rewrite <- app_assoc; reflexivity|]. destruct (asks_proj a A) as (Q1 & Q2 & _).
    rewrite fin_app, disc_app, Q1, Q2. cbn [app].
    pose proof (proj2 (run_facts out_edges target if_push) _ _ _ _ _ R) as F. pose proof (proj1 (run_facts out_edges target if_push) _ _ _ _ _ RV) as FV.
    split; [apply (f_fin _ _ _ F)|]. rewrite <- P1.
    assert (DN : forall x, In x (discovered T) -> steps (down T) v x) by (apply (proj1 (run_back out_edges target source if_push SRC) _ _ _ _ _ RV)).
    assert (TT : forall x y, down T x y -> In y (discovered T) /\ fresh p x y).
    { intros x y (e & Ie & S & Tg). destruct (proj1 run_src _ _ _ _ _ RV e (tree_examined _ _ _ _ FV Ie)) as [_ N].
      assert (Iy : In y (discovered T)). { rewrite (proj1 (proj2 (proj1 (run_edges out_edges target if_push) _ _ _ _ _ RV))). right. rewrite <- Tg. apply in_map, Ie. }
      split; [exact Iy|]. split; [rewrite <- S, <- Tg; exact N|]. apply H. apply (f_disc _ _ _ FV y Iy). }
    assert (Iv : In v (discovered T)) by (rewrite P1; left; reflexivity).
    assert (DN' : forall x, steps (down T) v x -> In x (discovered T)).
    { intros x. apply (steps_closed (down T) (fun y => In y (discovered T))); [|exact Iv]. intros y z _ D. apply (TT y z D). }
    split; [intros x; split; [apply DN|apply DN']|]. intros x. rewrite app_nil_r. split.
    - intros I. apply DN in I. revert I. apply steps_sub. intros y z D. apply (TT y z D).
    - apply (steps_closed (fresh p) (fun y => In y (discovered T))); [|exact Iv]. intros v' y Iv' [N Ny].
      destruct (in_dec' y (discovered T)) as [Y|Y]; [exact Y|]. exfalso. apply (proj1 (run_closed out_edges target if_push) _ _ _ _ _ RV v' y Iv' N).
      rewrite (f_other _ _ _ FV y Y). apply H, Ny.
  Qed.

  Lemma run_intervals :
    (forall v c a t c', vrun v c a t c' -> forall p, whites c p -> forall u, In u (discovered t) -> interval p t u) /\
    (forall u es c t c', eruns u es c t c' -> incl es (u_edges u) -> color_of c u = GRAY -> forall p, whites c p -> forall x, In x (discovered t) -> interval p t x).
  Proof.
    apply run_ind.
    - intros v c a t c' A W R IH p H u I. destruct (vproj v a t A) as (P1 & P2 & P3 & P4 & P5 & P6). rewrite P1 in I. destruct (asks_proj a A) as (Q1 & Q2 & _ & Q4 & _).
      destruct I as [<-|I]; [eapply whole_interval; eassumption|].
      change (Discover v :: a ++ t ++ [Finish v]) with ((Discover v :: a) ++ t ++ [Finish v]). apply interval_in.
      + rewrite (proj1 (proj2 (proj2 (run_edges out_edges target if_push) _ _ _ _ _ R))). apply incl_refl.
      + intros e. change ((Discover v :: a) ++ t ++ [Finish v]) with (Discover v :: a ++ t ++ [Finish v]). rewrite P4. auto.
      + exact I.
      + apply IH; [apply incl_refl|rewrite color_dset, eqb_refl; reflexivity| |exact I]. apply whites_disc; assumption.
    - intros u c _ _ p _ x [].
    - intros u e es c t1 c1 t2 c2 W V1 IA V2 IB IN G p H x I. destruct (tproj e t1 _ t2 (asks_ask out_edges u)) as (P1 & P2 & P3 & P4 & P5 & P6). rewrite P1 in I.
      pose proof (proj1 (run_facts out_edges target if_push) _ _ _ _ _ V1) as F1. pose proof (proj2 (run_facts out_edges target if_push) _ _ _ _ _ V2) as F2.
      destruct (asks_proj _ (asks_ask out_edges u)) as (Q1 & _).
      assert (N1 : ~ In u (discovered t1)) by (intros X; apply (f_disc _ _ _ F1) in X; destruct X; congruence).
      assert (G1 : color_of c1 u = GRAY) by (rewrite (f_other _ _ _ F1 u N1); exact G).
      assert (N2 : ~ In u (discovered t2)) by (intros X; apply (f_disc _ _ _ F2) in X; destruct X; congruence).
      assert (DJ : forall y, In y (discovered t1) -> ~ In y (discovered t2)). { intros y Y Z. apply (f_disc _ _ _ F1) in Y. apply (f_disc _ _ _ F2) in Z. destruct Y, Z. congruence. }
      assert (Su : source e = u) by (apply (u_edges_src out_edges source if_push SRC), IN; left; reflexivity).
      apply in_app_or in I. destruct I as [I|I].
      + change (Examine e :: Tree e :: t1 ++ asks u ++ t2) with ([Examine e; Tree e] ++ t1 ++ (asks u ++ t2)). apply interval_in.
        * rewrite (proj1 (proj2 (proj1 (run_edges out_edges target if_push) _ _ _ _ _ V1))). intros y Y. right. exact Y.
        * intros e' I' S'. change ([Examine e; Tree e] ++ t1 ++ (asks u ++ t2)) with (Examine e :: Tree e :: t1 ++ asks u ++ t2) in I'. rewrite P4 in I'. destruct I' as [<-|I']; [exfalso; apply N1; rewrite <- Su; exact S'|].
          apply in_app_or in I'. destruct I' as [I'|I']; [exact I'|]. exfalso. pose proof (tree_examined _ _ _ _ F2 I') as X.
          destruct (proj2 run_src _ _ _ _ _ V2 (fun z Z => IN z (or_intror Z)) e' X) as [[Y|Y] _]; [apply N1; rewrite <- Y; exact S'|apply (DJ _ S' Y)].
        * exact I.
        * apply IA; [apply whites_silent; [reflexivity|exact H]|exact I].
      + assert (EQ : Examine e :: Tree e :: t1 ++ asks u ++ t2 = (Examine e :: Tree e :: t1 ++ asks u) ++ t2 ++ []) by (cbn; rewrite <- !app_assoc, app_nil_r; reflexivity). rewrite EQ. apply interval_in.
        * rewrite (proj1 (proj2 (proj2 (run_edges out_edges target if_push) _ _ _ _ _ V2))). apply incl_refl.
        * intros e' I' S'. rewrite <- EQ, P4 in I'. destruct I' as [<-|I']; [exfalso; apply N2; rewrite <- Su; exact S'|].
          apply in_app_or in I'. destruct I' as [I'|I']; [|exact I']. exfalso. pose proof (tree_examined _ _ _ _ F1 I') as X.
          destruct (proj1 run_src _ _ _ _ _ V1 e' X) as [Y _]. apply (DJ _ Y S').
        * exact I.
        * apply IB; [intros z Z; apply IN; right; exact Z|exact G1| |exact I]. change (Examine e :: Tree e :: t1 ++ asks u) with ([Examine e; Tree e] ++ t1 ++ asks u). rewrite !app_assoc.
          apply whites_silent; [exact Q1|]. apply (whites_run c); [exact F1|]. apply whites_silent; [reflexivity|exact H].
    - intros u e es c t c' C V IB IN G p H x I. change (Examine e :: Back e :: t) with ([Examine e; Back e] ++ t). rewrite <- (app_nil_r t). apply interval_in.
      + rewrite (proj1 (proj2 (proj2 (run_edges out_edges target if_push) _ _ _ _ _ V))). apply incl_refl.
      + rewrite app_nil_r. auto.
      + exact I.
      + apply IB; [intros z Z; apply IN; right; exact Z|exact G| |exact I]. apply whites_silent; [reflexivity|exact H].
    - intros u e es c t c' C V IB IN G p H x I. change (Examine e :: ForwardOrCross e :: t) with ([Examine e; ForwardOrCross e] ++ t). rewrite <- (app_nil_r t). apply interval_in.
      + rewrite (proj1 (proj2 (proj2 (run_edges out_edges target if_push) _ _ _ _ _ V))). apply incl_refl.
      + rewrite app_nil_r. auto.
      + exact I.
      + apply IB; [intros z Z; apply IN; right; exact Z|exact G| |exact I]. apply whites_silent; [reflexivity|exact H].
  Qed.

  Notation sruns := (sruns out_edges target if_push).
  Lemma sruns_src l c t c' : sruns l c t c' -> (forall e, In e (examined t) -> In (source e) (discovered t)) /\ incl (map target (tree_edges t)) (discovered t).
  Proof.
    induction 1 as [c|u l c t c1 t' c2 W V R [IH1 IH2]|u l c t c' W R IH].
    - split; [intros e []|intros x []].
    - change ((Start u :: t) ++ t') with ([Start u] ++ t ++ t'). rewrite !exam_app, !disc_app, !tree_app. cbn [app examined discovered tree_edges flat_map]. split.
      + intros e I. apply in_app_or in I. apply in_or_app. destruct I as [I|I]; [left; apply (proj1 run_src _ _ _ _ _ V e I)|right; apply IH1, I].
      + rewrite map_app. intros x I. apply in_app_or in I. apply in_or_app. destruct I as [I|I]; [|right; apply IH2, I]. left.
        change (In x (discovered t)). rewrite (proj1 (proj2 (proj1 (run_edges out_edges target if_push) _ _ _ _ _ V))). right. exact I.
    - exact IH.
  Qed.
  Lemma sruns_intervals l c t c' : sruns l c t c' -> forall p, whites c p -> forall u, In u (discovered t) -> interval p t u.
  Proof.
    induction 1 as [c|u l c t c1 t' c2 W V R IH|u l c t c' W R IH]; intros p H x I.
    - destruct I.
    - pose proof (proj1 (run_facts out_edges target if_push) _ _ _ _ _ V) as F1. pose proof (sruns_facts _ _ _ _ _ _ _ R) as F2. destruct (sruns_src _ _ _ _ R) as [S2 T2].
      assert (DJ : forall y, In y (discovered t) -> ~ In y (discovered t')). { intros y Y Z. apply (f_disc _ _ _ F1) in Y. apply (f_disc _ _ _ F2) in Z. destruct Y, Z. congruence. }
      change ((Start u :: t) ++ t') with ([Start u] ++ t ++ t') in *. rewrite !disc_app in I. cbn [app discovered flat_map] in I. apply in_app_or in I. destruct I as [I|I].
      + apply interval_in; [| |exact I|].
        * rewrite (proj1 (proj2 (proj1 (run_edges out_edges target if_push) _ _ _ _ _ V))). intros y Y. right. exact Y.
        * intros e' I' S'. rewrite !tree_app in I'. cbn [app tree_edges flat_map] in I'. apply in_app_or in I'. destruct I' as [I'|I']; [exact I'|]. exfalso. apply (DJ _ S'). apply S2. apply (tree_examined _ _ _ _ F2 I').
        * apply (proj1 run_intervals _ _ _ _ _ V); [apply whites_silent; [reflexivity|exact H]|exact I].
      + rewrite app_assoc. rewrite <- (app_nil_r t'). apply interval_in; [exact T2| |exact I|].
        * intros e' I' S'. rewrite app_nil_r, !tree_app in I'. cbn [app tree_edges flat_map] in I'. apply in_app_or in I'. destruct I' as [I'|I']; [|exact I']. exfalso.
          destruct (proj1 run_src _ _ _ _ _ V e' (tree_examined _ _ _ _ F1 I')) as [Y _]. apply (DJ _ Y S').
        * apply IH; [|exact I]. rewrite app_assoc. apply (whites_run c); [exact F1|]. apply whites_silent; [reflexivity|exact H].
    - apply IH; assumption.
  Qed.

  (** ** Legal calls *)
  Definition all_legal (p t r : list ev) : Prop := forall t1 x t2, t = t1 ++ x :: t2 -> legal (p ++ t1) x (t2 ++ r).
  Lemma all_legal_nil p r : all_legal p [] r.
  Proof. intros t1 x t2 Q. destruct t1; discriminate. Qed.
  Lemma all_legal_cons p x t r : legal p x (t ++ r) -> all_legal (p ++ [x]) t r -> all_legal p (x :: t) r.
  Proof.
    intros H1 H2 t1 y t2 Q. destruct t1 as [|z t1]; cbn in Q; injection Q as -> Q.
    - subst t. rewrite app_nil_r. exact H1.
    - specialize (H2 t1 y t2 Q). rewrite <- app_assoc in H2. exact H2.
  Qed.
  Lemma all_legal_app p t t' r : all_legal p t (t' ++ r) -> all_legal (p ++ t) t' r -> all_legal p (t ++ t') r.
  Proof.
    revert p. induction t as [|x t IH]; intros p H1 H2; cbn [app]; [rewrite app_nil_r in H2; exact H2|]. apply all_legal_cons.
    - specialize (H1 [] x t eq_refl). rewrite app_nil_r in H1. rewrite <- app_assoc. exact H1.
    - apply IH; [|rewrite <- app_assoc; exact H2]. intros t1 y t2 Q. specialize (H1 (x :: t1) y t2). rewrite <- app_assoc. apply H1. cbn. rewrite Q. reflexivity.
  Qed.
  Lemma all_legal_asks p a r : Forall is_ask a -> all_legal p a r.
  Proof. intros A t1 x t2 Q. rewrite Q in A. apply Forall_app in A. destruct A as [_ A]. inversion A as [|? ? Hx _]; subst. destruct x; try destruct Hx. exact I. Qed.

  Lemma opened_app (p t : list ev) : opened (p ++ t) = fold_left (fun s x => match x with Discover v => v :: s | Finish _ => tl s | _ => s end) t (opened p).
  Proof. unfold opened. apply fold_left_app. Qed.
  Lemma opened_asks (p a : list ev) : Forall is_ask a -> opened (p ++ a) = opened p.
  Proof.
    intros A. rewrite opened_app. generalize (opened p). induction A as [|x a Hx A IH]; intros s; [reflexivity|]. destruct x; try destruct Hx. apply IH.
  Qed.

  (** the colors, read in the previous calls *)
  Definition tells (c : colors) (p : list ev) : Prop := forall v,
    match color_of c v with
    | WHITE => ~ In v (discovered p)
    | GRAY => In v (opened p) /\ In v (discovered p)
    | BLACK => In v (finished p) /\ In v (discovered p)
    end.
  Lemma tells_silent c p a : opened (p ++ a) = opened p -> discovered a = [] -> finished a = [] -> tells c p -> tells c (p ++ a).
  Proof. intros O D F H v. rewrite O, disc_app, fin_app, D, F, !app_nil_r. apply H. Qed.
  Lemma tells_discover c p v : tells c p -> tells (dset c v GRAY) (p ++ [Discover v]).
  Proof.
    intros H w. rewrite opened_app, disc_app, fin_app. cbn [fold_left discovered finished flat_map app]. rewrite !app_nil_r, color_dset. destruct (eqb_spec w v) as [->|N].
    - split; [left; reflexivity|apply in_or_app; right; left; reflexivity].
    - specialize (H w). destruct (color_of c w); rewrite ?in_app_iff; cbn; intuition congruence.
  Qed.
  Lemma tells_finish c p v S : opened p = v :: S -> In v (discovered p) -> tells c p -> tells (dset c v BLACK) (p ++ [Finish v]).
  Proof.
    intros O D H w. rewrite opened_app, disc_app, fin_app. cbn [fold_left discovered finished flat_map app]. rewrite !app_nil_r, color_dset, O. cbn [tl]. destruct (eqb_spec w v) as [->|N].
    - rewrite in_app_iff. cbn. auto.
    - specialize (H w). rewrite O in H. destruct (color_of c w); rewrite ?in_app_iff; cbn in *; intuition congruence.
  Qed.

  (** the edges examined from [v] *)
  Definition from (v : nat) (p : list ev) : list E := filter (fun e => source e =? v) (examined p).
  Lemma from_app v p t : from v (p ++ t) = from v p ++ from v t.
  Proof. unfold from. rewrite exam_app. apply filter_app. Qed.
  Lemma from_none v t : (forall e, In e (examined t) -> source e <> v) -> from v t = [].
  Proof.
    intros H. unfold from. induction (examined t) as [|e l IH]; [reflexivity|]. cbn. destruct (Nat.eqb_spec (source e) v) as [X|X]; [destruct (H e (or_introl eq_refl) X)|].
    apply IH. intros e' I. apply H. right. exact I.
  Qed.
  Definition sourced (p : list ev) : Prop := forall e, In e (examined p) -> In (source e) (discovered p).

  Lemma run_legal :
    (forall v c a t c', vrun v c a t c' -> forall p r, tells c p -> sourced p ->
      all_legal p t r /\ tells c' (p ++ t) /\ opened (p ++ t) = opened p /\ exists t', t = Discover v :: t') /\
    (forall u es c t c', eruns u es c t c' -> incl es (u_edges u) -> color_of c u = GRAY -> forall p r S, tells c p -> sourced p -> opened p = u :: S -> from u p ++ es = u_edges u ->
      all_legal p t r /\ tells c' (p ++ t) /\ opened (p ++ t) = opened p /\ from u (p ++ t) = u_edges u).
  Proof.
    apply run_ind.
    - intros v c a t c' A W R IH p r H SP.
      pose proof (proj2 (run_facts out_edges target if_push) _ _ _ _ _ R) as F.
      assert (Nv : ~ In v (discovered p)) by (specialize (H v); rewrite W in H; exact H).
      set (p1 := (p ++ [Discover v]) ++ a). assert (O1 : opened p1 = v :: opened p) by (unfold p1; rewrite opened_asks by exact A; rewrite opened_app; reflexivity).
      destruct (asks_proj a A) as (Q1 & Q2 & Q3 & _).
      assert (H1 : tells (dset c v GRAY) p1). { apply tells_silent; [unfold p1; apply opened_asks, A|exact Q1|exact Q2|apply tells_discover, H]. }
      assert (S1 : sourced p1). { intros e I. unfold p1 in *. rewrite !exam_app, Q3 in I. cbn in I. rewrite !app_nil_r in I. rewrite !disc_app. apply in_or_app. left. apply in_or_app. left. apply SP, I. }
      assert (F1 : from v p1 = []). { apply from_none. intros e I X. apply Nv. rewrite <- X. unfold p1 in I. rewrite !exam_app, Q3 in I. cbn in I. rewrite !app_nil_r in I. apply SP, I. }
      destruct (IH (incl_refl _) ltac:(rewrite color_dset, eqb_refl; reflexivity) p1 ([Finish v] ++ r) _ H1 S1 O1) as (L & T & O & FR); [rewrite F1; reflexivity|].
      split; [|split; [|split; [|eexists; reflexivity]]].
      + apply all_legal_cons; [exact Nv|]. apply all_legal_app; [apply all_legal_asks, A|]. fold p1. apply all_legal_app; [exact L|]. apply all_legal_cons; [|apply all_legal_nil].
        split; [rewrite O, O1; reflexivity|exact FR].
      + change (Discover v :: a ++ t ++ [Finish v]) with ([Discover v] ++ a ++ t ++ [Finish v]). rewrite !app_assoc. fold p1. apply (tells_finish _ _ _ (opened p)); [rewrite O; exact O1| |exact T].
        unfold p1. rewrite !disc_app, !in_app_iff. left. left. right. left. reflexivity.
      + change (Discover v :: a ++ t ++ [Finish v]) with ([Discover v] ++ a ++ t ++ [Finish v]). rewrite !app_assoc. fold p1. rewrite opened_app, O, O1. reflexivity.
    - intros u c _ G p r S H SP O FR. rewrite app_nil_r. rewrite app_nil_r in FR. split; [apply all_legal_nil|]. auto.
    - intros u e es c t1 c1 t2 c2 W V1 IA V2 IB IN G p r S H SP O FR.
      pose proof (proj1 (run_facts out_edges target if_push) _ _ _ _ _ V1) as F1.
      assert (Su : source e = u) by (apply (u_edges_src out_edges source if_push SRC), IN; left; reflexivity).
      assert (Du : In u (discovered p)) by (specialize (H u); rewrite G in H; apply H).
      assert (N1 : ~ In u (discovered t1)) by (intros X; apply (f_disc _ _ _ F1) in X; destruct X; congruence).
      assert (G1 : color_of c1 u = GRAY) by (rewrite (f_other _ _ _ F1 u N1); exact G).
      set (p1 := p ++ [Examine e; Tree e]). assert (O1 : opened p1 = opened p) by (unfold p1; rewrite opened_app; reflexivity).
      assert (H1 : tells c p1) by (apply tells_silent; [exact O1|reflexivity|reflexivity|exact H]).
      assert (S1 : sourced p1). { intros e' I. unfold p1 in *. rewrite exam_app in I. rewrite disc_app. apply in_or_app. left. apply in_app_or in I. destruct I as [I|[<-|[]]]; [apply SP, I|rewrite Su; exact Du]. }
      destruct (IA p1 (asks u ++ t2 ++ r) H1 S1) as (L1 & T1 & O1' & t' & E1).
      destruct (asks_proj _ (asks_ask out_edges u)) as (Q1 & Q2 & Q3 & _).
      set (p2 := (p1 ++ t1) ++ asks u). assert (O2 : opened p2 = u :: S) by (unfold p2; rewrite opened_asks by apply asks_ask; rewrite O1', O1; exact O).
      assert (H2 : tells c1 p2) by (apply tells_silent; [unfold p2; apply opened_asks, asks_ask|exact Q1|exact Q2|exact T1]).
      assert (S2 : sourced p2). { intros e' I. unfold p2 in *. rewrite !exam_app, Q3, app_nil_r in I. rewrite !disc_app, Q1, app_nil_r. apply in_app_or in I. apply in_or_app.
        destruct I as [I|I]; [left; apply S1, I|right; apply (proj1 run_src _ _ _ _ _ V1 e' I)]. }
      assert (FR2 : from u p2 ++ es = u_edges u).
      { unfold p2, p1. rewrite !from_app. replace (from u (asks u)) with (@nil E) by (unfold from; rewrite Q3; reflexivity). rewrite (from_none u t1).
        - unfold from at 2. cbn. rewrite Su, Nat.eqb_refl. rewrite !app_nil_r, <- app_assoc. exact FR.
        - intros e' I X. apply N1. rewrite <- X. apply (proj1 run_src _ _ _ _ _ V1 e' I). }
      destruct (IB (fun z Z => IN z (or_intror Z)) G1 p2 r S H2 S2 O2 FR2) as (L2 & T2 & O2' & FR').
      assert (EQ : p ++ Examine e :: Tree e :: t1 ++ asks u ++ t2 = p2 ++ t2) by (unfold p2, p1; rewrite <- !app_assoc; reflexivity). rewrite EQ.
      split; [|split; [exact T2|split; [rewrite O2', O2, O; reflexivity|exact FR']]].
      apply all_legal_cons; [|apply all_legal_cons].
      + split; [rewrite O, Su; reflexivity|]. exists (t' ++ asks u ++ t2 ++ r). left. split; [rewrite E1; cbn; rewrite <- !app_assoc; reflexivity|]. specialize (H (target e)). rewrite W in H. exact H.
      + exists p. reflexivity.
      + rewrite <- app_assoc. cbn [app]. fold p1. apply all_legal_app; [rewrite <- app_assoc; exact L1|]. apply all_legal_app; [apply all_legal_asks, asks_ask|]. fold p2. exact L2.
    - intros u e es c t c' C V IB IN G p r S H SP O FR.
      assert (Su : source e = u) by (apply (u_edges_src out_edges source if_push SRC), IN; left; reflexivity).
      assert (Du : In u (discovered p)) by (specialize (H u); rewrite G in H; apply H).
      set (p1 := p ++ [Examine e; Back e]). assert (O1 : opened p1 = opened p) by (unfold p1; rewrite opened_app; reflexivity).
      assert (H1 : tells c p1) by (apply tells_silent; [exact O1|reflexivity|reflexivity|exact H]).
      assert (S1 : sourced p1). { intros e' I. unfold p1 in *. rewrite exam_app in I. rewrite disc_app. apply in_or_app. left. apply in_app_or in I. destruct I as [I|[<-|[]]]; [apply SP, I|rewrite Su; exact Du]. }
      assert (FR1 : from u p1 ++ es = u_edges u). { unfold p1. rewrite from_app. unfold from at 2. cbn. rewrite Su, Nat.eqb_refl. rewrite <- app_assoc. exact FR. }
      destruct (IB (fun z Z => IN z (or_intror Z)) G p1 r S H1 S1 (eq_trans O1 O) FR1) as (L1 & T1 & O1' & FR').
      assert (EQ : p ++ Examine e :: Back e :: t = p1 ++ t) by (unfold p1; rewrite <- !app_assoc; reflexivity). rewrite EQ.
      split; [|split; [exact T1|split; [rewrite O1', O1; reflexivity|exact FR']]].
      apply all_legal_cons; [|apply all_legal_cons].
      + split; [rewrite O, Su; reflexivity|]. exists (t ++ r). right. left. split; [reflexivity|]. specialize (H (target e)). rewrite C in H. apply H.
      + exists p. reflexivity.
      + rewrite <- app_assoc. cbn [app]. fold p1. exact L1.
    - intros u e es c t c' C V IB IN G p r S H SP O FR.
      assert (Su : source e = u) by (apply (u_edges_src out_edges source if_push SRC), IN; left; reflexivity).
      assert (Du : In u (discovered p)) by (specialize (H u); rewrite G in H; apply H).
      set (p1 := p ++ [Examine e; ForwardOrCross e]). assert (O1 : opened p1 = opened p) by (unfold p1; rewrite opened_app; reflexivity).
      assert (H1 : tells c p1) by (apply tells_silent; [exact O1|reflexivity|reflexivity|exact H]).
      assert (S1 : sourced p1). { intros e' I. unfold p1 in *. rewrite exam_app in I. rewrite disc_app. apply in_or_app. left. apply in_app_or in I. destruct I as [I|[<-|[]]]; [apply SP, I|rewrite Su; exact Du]. }
      assert (FR1 : from u p1 ++ es = u_edges u). { unfold p1. rewrite from_app. unfold from at 2. cbn. rewrite Su, Nat.eqb_refl. rewrite <- app_assoc. exact FR. }
      destruct (IB (fun z Z => IN z (or_intror Z)) G p1 r S H1 S1 (eq_trans O1 O) FR1) as (L1 & T1 & O1' & FR').
      assert (EQ : p ++ Examine e :: ForwardOrCross e :: t = p1 ++ t) by (unfold p1; rewrite <- !app_assoc; reflexivity). rewrite EQ.
      split; [|split; [exact T1|split; [rewrite O1', O1; reflexivity|exact FR']]].
      apply all_legal_cons; [|apply all_legal_cons].
      + split; [rewrite O, Su; reflexivity|]. exists (t ++ r). right. right. split; [reflexivity|]. specialize (H (target e)). rewrite C in H. apply H.
      + exists p. reflexivity.
      + rewrite <- app_assoc. cbn [app]. fold p1. exact L1.
  Qed.

  Lemma sruns_legal l c t c' : sruns l c t c' -> forall p r, tells c p -> sourced p -> opened p = [] -> all_legal p t r /\ opened (p ++ t) = [].
  Proof.
    induction 1 as [c|u l c t c1 t' c2 W V R IH|u l c t c' W R IH]; intros p r H SP O.
    - split; [apply all_legal_nil|rewrite app_nil_r; exact O].
    - set (p1 := p ++ [Start u]). assert (O1 : opened p1 = opened p) by (unfold p1; rewrite opened_app; reflexivity).
      assert (H1 : tells c p1) by (apply tells_silent; [exact O1|reflexivity|reflexivity|exact H]).
      assert (S1 : sourced p1). { intros e' I. unfold p1 in *. rewrite exam_app in I. cbn in I. rewrite app_nil_r in I. rewrite disc_app. apply in_or_app. left. apply SP, I. }
      destruct (proj1 run_legal _ _ _ _ _ V p1 (t' ++ r) H1 S1) as (L1 & T1 & O1' & t1 & E1).
      assert (S2 : sourced (p1 ++ t)). { intros e' I. rewrite exam_app in I. rewrite disc_app. apply in_app_or in I. apply in_or_app. destruct I as [I|I]; [left; apply S1, I|right; apply (proj1 run_src _ _ _ _ _ V e' I)]. }
      destruct (IH (p1 ++ t) r T1 S2) as (L2 & O2); [rewrite O1', O1; exact O|].
      split; [|unfold p1 in O2; rewrite <- !app_assoc in O2; exact O2].
      change ((Start u :: t) ++ t') with (Start u :: t ++ t'). apply all_legal_cons.
      + split; [exact O|]. split; [specialize (H u); rewrite W in H; exact H|]. exists (t1 ++ t' ++ r). rewrite E1. cbn. rewrite <- app_assoc. reflexivity.
      + fold p1. apply all_legal_app; assumption.
    - apply IH; assumption.
  Qed.
End Run.
