(** Lemmas on depth_first_search: the machine follows the recursive search. *)
From Verif Require Import Base BaseProofs Search SearchSpec.
#[local] Arguments dkeys : simpl never.

Lemma color_dset c v x w : color_of (dset c v x) w = if eqb w v then x else color_of c w.
Proof. unfold color_of. rewrite dget_dset. destruct (eqb w v); reflexivity. Qed.
Lemma dset_dset (c : colors) v x y : dset (dset c v x) v y = dset c v y.
Proof.
  induction c as [|[k z] c IH]; cbn [dset]; [rewrite eqb_refl; reflexivity|].
  destruct (eqb v k) eqn:EQ; cbn [dset]; rewrite EQ; [reflexivity|]. rewrite IH. reflexivity.
Qed.
Lemma color_read_white c v : color_of c v = WHITE -> fst (color_read c v) = WHITE /\ forall x, dset (snd (color_read c v)) v x = dset c v x.
Proof.
  unfold color_of, color_read. destruct (dget c v) as [x|]; cbn [fst snd]; [intros ->; split; reflexivity|].
  intros _. split; [reflexivity|]. intros x. apply dset_dset.
Qed.
Lemma color_read_other c v : color_of c v <> WHITE -> color_read c v = (color_of c v, c).
Proof. unfold color_of, color_read. destruct (dget c v); [reflexivity|]. intros X. destruct (X eq_refl). Qed.

Lemma steps_trans {X} (R : X -> X -> Prop) x y z : steps R x y -> steps R y z -> steps R x z.
Proof. induction 1; [trivial|]. intros. econstructor; eauto. Qed.
Lemma steps_one {X} (R : X -> X -> Prop) x y : R x y -> steps R x y.
Proof. intros H. econstructor; [exact H|constructor]. Qed.
Lemma steps_sub {X} (R R' : X -> X -> Prop) : (forall x y, R x y -> R' x y) -> forall x y, steps R x y -> steps R' x y.
Proof. intros H x y. induction 1; econstructor; eauto. Qed.

Section Trace.
  Context {E : Type}.
  Implicit Types t : list (event E).
  Definition is_ask (x : event E) : Prop := match x with Ask _ => True | _ => False end.
  Lemma disc_app t t' : discovered (t ++ t') = discovered t ++ discovered t'.
  Proof. apply flat_map_app. Qed.
  Lemma fin_app t t' : finished (t ++ t') = finished t ++ finished t'.
  Proof. apply flat_map_app. Qed.
  Lemma exam_app t t' : examined (t ++ t') = examined t ++ examined t'.
  Proof. apply flat_map_app. Qed.
  Lemma tree_app t t' : tree_edges (t ++ t') = tree_edges t ++ tree_edges t'.
  Proof. apply flat_map_app. Qed.
  Lemma back_app t t' : back_edges (t ++ t') = back_edges t ++ back_edges t'.
  Proof. apply flat_map_app. Qed.
  Lemma foc_app t t' : forward_or_cross_edges (t ++ t') = forward_or_cross_edges t ++ forward_or_cross_edges t'.
  Proof. apply flat_map_app. Qed.
  Lemma asks_proj t : Forall is_ask t -> discovered t = [] /\ finished t = [] /\ examined t = [] /\ tree_edges t = [] /\ back_edges t = [] /\ forward_or_cross_edges t = [].
  Proof. induction 1 as [|x t H F IH]; [repeat split|]. destruct x; try destruct H. cbn. exact IH. Qed.
  (** the six projections of the sequence made by the search of a vertex *)
  Lemma vproj v a t : Forall is_ask a -> let T := Discover v :: a ++ t ++ [Finish v] in
    discovered T = v :: discovered t /\ finished T = finished t ++ [v] /\ examined T = examined t /\ tree_edges T = tree_edges t /\
    back_edges T = back_edges t /\ forward_or_cross_edges T = forward_or_cross_edges t.
  Proof.
    intros A. destruct (asks_proj a A) as (P1 & P2 & P3 & P4 & P5 & P6). cbv zeta. change (Discover v :: a ++ t ++ [Finish v]) with ([Discover v] ++ a ++ t ++ [Finish v]).
    rewrite !disc_app, !fin_app, !exam_app, !tree_app, !back_app, !foc_app, P1, P2, P3, P4, P5, P6. cbn [app].
    change (discovered [Discover v]) with [v]. change (discovered [Finish v]) with (@nil nat). change (finished [Discover v]) with (@nil nat).
    change (finished [Finish v]) with [v]. change (examined [Discover v]) with (@nil E). change (examined [Finish v]) with (@nil E).
    change (tree_edges [Discover v]) with (@nil E). change (tree_edges [Finish v]) with (@nil E). change (back_edges [Discover v]) with (@nil E). change (back_edges [Finish v]) with (@nil E).
    change (forward_or_cross_edges [Discover v]) with (@nil E). change (forward_or_cross_edges [Finish v]) with (@nil E). rewrite !app_nil_r. repeat split.
  Qed.
  (** those of the sequence for a tree edge *)
  Lemma tproj e t1 a t2 : Forall is_ask a -> let T := Examine e :: Tree e :: t1 ++ a ++ t2 in
    discovered T = discovered t1 ++ discovered t2 /\ finished T = finished t1 ++ finished t2 /\ examined T = e :: examined t1 ++ examined t2 /\
    tree_edges T = e :: tree_edges t1 ++ tree_edges t2 /\ back_edges T = back_edges t1 ++ back_edges t2 /\
    forward_or_cross_edges T = forward_or_cross_edges t1 ++ forward_or_cross_edges t2.
  Proof.
    intros A. destruct (asks_proj a A) as (P1 & P2 & P3 & P4 & P5 & P6). cbv zeta. change (Examine e :: Tree e :: t1 ++ a ++ t2) with ([Examine e; Tree e] ++ t1 ++ a ++ t2).
    rewrite !disc_app, !fin_app, !exam_app, !tree_app, !back_app, !foc_app, P1, P2, P3, P4, P5, P6. repeat split.
  Qed.
End Trace.

Section Facts.
  Context {E : Type}.
  Notation ev := (event E).
  (** ** Colors, discovered and examined *)
  Record facts (c : colors) (t : list ev) (c' : colors) : Prop := {
    f_nodup : NoDup (discovered t);
    f_disc : forall x, In x (discovered t) -> color_of c x = WHITE /\ color_of c' x = BLACK;
    f_other : forall x, ~ In x (discovered t) -> color_of c' x = color_of c x;
    f_keys : forall x, In x (dkeys c') <-> In x (dkeys c) \/ In x (discovered t);
    f_fin : Permutation (finished t) (discovered t);
    f_class : Permutation (examined t) (tree_edges t ++ back_edges t ++ forward_or_cross_edges t) }.


  Ltac projs := rewrite ?disc_app, ?fin_app, ?exam_app, ?tree_app, ?back_app, ?foc_app.
  Lemma facts_trans c t c1 t' c2 : facts c t c1 -> facts c1 t' c2 -> facts c (t ++ t') c2.
  Proof.
    intros [A1 A2 A3 A4 A5 A6] [B1 B2 B3 B4 B5 B6].
    assert (DJ : forall x, In x (discovered t) -> ~ In x (discovered t')).
    { intros x X Y. apply A2 in X. apply B2 in Y. destruct X as [_ X], Y as [Y _]. congruence. }
    constructor; projs.
    - apply NoDup_app_intro; assumption.
    - intros x. rewrite in_app_iff. intros [X|X].
      + split; [apply A2, X|]. rewrite B3; [apply A2, X|apply DJ, X].
      + split; [|apply B2, X]. rewrite <- A3; [apply B2, X|]. intros Y. exact (DJ x Y X).
    - intros x. rewrite in_app_iff. intros N. rewrite B3, A3; [reflexivity| |]; tauto.
    - intros x. rewrite B4, A4, in_app_iff. tauto.
    - apply Permutation_app; assumption.
    - rewrite A6, B6. rewrite <- !app_assoc. apply Permutation_app_head. rewrite !app_assoc. rewrite (Permutation_app_comm (back_edges t) (forward_or_cross_edges t)).
      rewrite <- !app_assoc. rewrite (Permutation_app_comm (forward_or_cross_edges t)). rewrite <- !app_assoc.
      rewrite (Permutation_app_swap_app (back_edges t)). apply Permutation_app_head. apply Permutation_app_head. apply Permutation_app_head. apply Permutation_app_comm.
  Qed.
  Lemma facts_asks c a : Forall is_ask a -> facts c a c.
  Proof.
    intros A. destruct (asks_proj a A) as (H5 & H6 & H1 & H2 & H3 & H4). constructor; rewrite ?H1, ?H2, ?H3, ?H4, ?H5, ?H6; cbn; try tauto; try constructor.
  Qed.
  Lemma facts_edge c e k : k = Tree e \/ k = Back e \/ k = ForwardOrCross e -> facts c [Examine e; k] c.
  Proof. intros [-> |[-> | ->]]; constructor; cbn; try tauto; try constructor; try constructor. Qed.

  Lemma nonwhite c t c' x : facts c t c' -> color_of c x <> WHITE -> color_of c' x = color_of c x.
  Proof. intros F N. apply (f_other _ _ _ F). intros X. apply (f_disc _ _ _ F) in X. tauto. Qed.

End Facts.

Section Run.
  Context {E : Type}.
  Variables (out_edges : nat -> list E) (target : E -> nat) (if_push : E -> bool).
  Notation u_edges := (u_edges out_edges if_push).
  Notation asks := (@asks E out_edges).
  Notation next := (next out_edges target if_push).
  Notation ev := (event E).

  Lemma asks_ask u : Forall is_ask (asks u).
  Proof. unfold asks. apply Forall_forall. intros x H. apply in_map_iff in H. destruct H as (e & <- & _). exact I. Qed.
  Lemma In_u_edges u e : In e (u_edges u) -> next u (target e).
  Proof. unfold u_edges. intros H. apply filter_In in H. exists e. intuition. Qed.

  (** the recursive search: of a vertex, of a list of out-edges of [u] *)
  Inductive vrun : nat -> colors -> list ev -> list ev -> colors -> Prop :=
  | vrun_i v c a t c' : Forall is_ask a -> color_of c v = WHITE -> eruns v (u_edges v) (dset c v GRAY) t c' ->
      vrun v c a (Discover v :: a ++ t ++ [Finish v]) (dset c' v BLACK)
  with eruns : nat -> list E -> colors -> list ev -> colors -> Prop :=
  | er_nil u c : eruns u [] c [] c
  | er_white u e es c t1 c1 t2 c2 : color_of c (target e) = WHITE -> vrun (target e) c (asks (target e)) t1 c1 -> eruns u es c1 t2 c2 ->
      eruns u (e :: es) c (Examine e :: Tree e :: t1 ++ asks u ++ t2) c2
  | er_gray u e es c t c' : color_of c (target e) = GRAY -> eruns u es c t c' -> eruns u (e :: es) c (Examine e :: Back e :: t) c'
  | er_black u e es c t c' : color_of c (target e) = BLACK -> eruns u es c t c' -> eruns u (e :: es) c (Examine e :: ForwardOrCross e :: t) c'.
  Scheme vrun_m := Minimality for vrun Sort Prop with eruns_m := Minimality for eruns Sort Prop.
  Combined Scheme run_ind from vrun_m, eruns_m.

  (** ** The machine *)
  Section Vis.
    Context {St : Type}.
    Variable vis : event E -> St -> res St.
    Notation calls := (calls vis).
    Notation dfs_loop := (dfs_loop out_edges target if_push vis).
    Definition after {X} (l : list ev) (st : St) (K : St -> option (res X)) : option (res X) :=
      match calls l st with Raise x => Some (Raise x) | Ok st1 => K st1 end.
    Lemma calls_app l l' st : calls (l ++ l') st = rbind (calls l st) (calls l').
    Proof. revert st. induction l as [|x l IH]; intros st; cbn; [reflexivity|]. destruct (vis x st); cbn; [apply IH|reflexivity]. Qed.
    Lemma after_app {X} l l' st (K : St -> option (res X)) : after (l ++ l') st K = after l st (fun st => after l' st K).
    Proof. unfold after. rewrite calls_app. destruct (calls l st); reflexivity. Qed.
    Lemma after_ext {X} l st (K K' : St -> option (res X)) : (forall st, K st = K' st) -> after l st K = after l st K'.
    Proof. intros H. unfold after. destruct (calls l st); [apply H|reflexivity]. Qed.

    Lemma machine :
      (forall v c a t c', vrun v c a t c' -> exists k, forall stack st fuel,
         after (Discover v :: a) st (fun st => dfs_loop (k + fuel) (Some (v, 0, length (u_edges v))) stack (dset c v GRAY) st) =
         after t st (fun st => dfs_loop fuel None stack c' st)) /\
      (forall u es c t c', eruns u es c t c' -> forall pre, u_edges u = pre ++ es -> exists k, forall stack st fuel,
         dfs_loop (k + fuel) (Some (u, length pre, length (u_edges u))) stack c st =
         after t st (fun st => dfs_loop fuel (Some (u, length (u_edges u), length (u_edges u))) stack c' st)).
    Proof.
      apply run_ind.
      - intros v c a t c' A W _ IH. destruct (IH [] eq_refl) as (k & Hk). cbn [length] in Hk. exists (k + 1). intros stack st fuel.
        change (Discover v :: a ++ t ++ [Finish v]) with ((Discover v :: a) ++ t ++ [Finish v]). rewrite after_app. apply after_ext. clear st. intros st.
        replace (k + 1 + fuel) with (k + S fuel) by lia. rewrite Hk, after_app. apply after_ext. clear st. intros st. cbn [Search.dfs_loop].
        rewrite eqb_refl. unfold after. cbn [Search.calls]. destruct (vis (Finish v) st); reflexivity.
      - intros u c pre EQ. exists 0. intros stack st fuel. rewrite EQ, app_nil_r. reflexivity.
      - intros u e es c t1 c1 t2 c2 W _ [k1 IH1] _ IH2 pre EQ. destruct (IH2 (pre ++ [e])) as (k2 & H2); [rewrite <- app_assoc; exact EQ|].
        exists (S (k1 + S k2)). intros stack st fuel. cbn [Nat.add Search.dfs_loop].
        rewrite (proj2 (eqb_neq (length pre) (length (u_edges u)))) by (rewrite EQ, app_length; cbn; lia).
        assert (N : nth_error (u_edges u) (length pre) = Some e) by (rewrite EQ, nth_error_app2, Nat.sub_diag by lia; reflexivity). rewrite N.
        destruct (color_read_white c (target e) W) as [R1 R2]. destruct (color_read c (target e)) as [x cc] eqn:RR. cbn [fst snd] in *. subst x. rewrite R2.
        change (Examine e :: Tree e :: t1 ++ asks u ++ t2) with ([Examine e; Tree e] ++ t1 ++ asks u ++ t2). rewrite after_app.
        change ([Examine e; Tree e; Discover (target e)] ++ asks (target e)) with ([Examine e; Tree e] ++ Discover (target e) :: asks (target e)).
        match goal with |- match ?x with _ => _ end = _ => change (after ([Examine e; Tree e] ++ Discover (target e) :: asks (target e)) st
          (fun st1 => dfs_loop (k1 + S k2 + fuel) (Some (target e, 0, length (u_edges (target e)))) ((u, length pre + 1, length (u_edges u)) :: stack) (dset c (target e) GRAY) st1)
          = after [Examine e; Tree e] st (fun st => after (t1 ++ asks u ++ t2) st (fun st => dfs_loop fuel (Some (u, length (u_edges u), length (u_edges u))) stack c2 st))) end.
        rewrite after_app. apply after_ext. clear st. intros st. replace (k1 + S k2 + fuel) with (k1 + S (k2 + fuel)) by lia.
        rewrite IH1, after_app. apply after_ext. clear st. intros st. rewrite after_app. cbn [Search.dfs_loop].
        apply after_ext. clear st. intros st. rewrite app_length in H2. cbn [length] in H2. apply H2.
      - intros u e es c t c' G _ IH pre EQ. destruct (IH (pre ++ [e])) as (k & Hk); [rewrite <- app_assoc; exact EQ|].
        exists (S k). intros stack st fuel. cbn [Nat.add Search.dfs_loop].
        rewrite (proj2 (eqb_neq (length pre) (length (u_edges u)))) by (rewrite EQ, app_length; cbn; lia).
        assert (N : nth_error (u_edges u) (length pre) = Some e) by (rewrite EQ, nth_error_app2, Nat.sub_diag by lia; reflexivity). rewrite N.
        rewrite (color_read_other c (target e)), G by (rewrite G; discriminate).
        change (Examine e :: Back e :: t) with ([Examine e; Back e] ++ t). rewrite after_app. apply after_ext. clear st. intros st.
        rewrite app_length in Hk. cbn [length] in Hk. apply Hk.
      - intros u e es c t c' G _ IH pre EQ. destruct (IH (pre ++ [e])) as (k & Hk); [rewrite <- app_assoc; exact EQ|].
        exists (S k). intros stack st fuel. cbn [Nat.add Search.dfs_loop].
        rewrite (proj2 (eqb_neq (length pre) (length (u_edges u)))) by (rewrite EQ, app_length; cbn; lia).
        assert (N : nth_error (u_edges u) (length pre) = Some e) by (rewrite EQ, nth_error_app2, Nat.sub_diag by lia; reflexivity). rewrite N.
        rewrite (color_read_other c (target e)), G by (rewrite G; discriminate).
        change (Examine e :: ForwardOrCross e :: t) with ([Examine e; ForwardOrCross e] ++ t). rewrite after_app. apply after_ext. clear st. intros st.
        rewrite app_length in Hk. cbn [length] in Hk. apply Hk.
    Qed.

    Lemma dfs_run s c t c' : vrun s c (asks s ++ asks s) t c' -> exists k, forall st fuel, k <= fuel ->
      depth_first_search out_edges target if_push vis fuel s c st = after (Start s :: t) st (fun st => Some (Ok (c', st))).
    Proof.
      intros V. destruct (proj1 machine _ _ _ _ _ V) as (k & Hk). exists (S (k + 1)). intros st fuel L.
      replace fuel with (S (k + S (fuel - k - 2))) by lia. unfold depth_first_search.
      change (Start s :: t) with ([Start s] ++ t). rewrite after_app.
      change ([Start s; Discover s] ++ asks s) with ([Start s] ++ Discover s :: asks s).
      change (after ([Start s] ++ Discover s :: asks s) st (fun st => dfs_loop (S (k + S (fuel - k - 2))) None [(s, 0, length (u_edges s))] (dset c s GRAY) st) =
        after [Start s] st (fun st => after t st (fun st => Some (Ok (c', st))))).
      rewrite after_app. apply after_ext. clear st. intros st.
      transitivity (after (Discover s :: asks s ++ asks s) st (fun st => dfs_loop (k + S (fuel - k - 2)) (Some (s, 0, length (u_edges s))) [] (dset c s GRAY) st)).
      - change (Discover s :: asks s ++ asks s) with ((Discover s :: asks s) ++ asks s). rewrite after_app. reflexivity.
      - rewrite Hk. reflexivity.
    Qed.
  End Vis.

  Lemma run_facts : (forall v c a t c', vrun v c a t c' -> facts c t c') /\ (forall u es c t c', eruns u es c t c' -> facts c t c').
  Proof.
    apply run_ind.
    - intros v c a t c' A W _ F. destruct (vproj v a t A) as (P1 & P2 & P3 & P4 & P5 & P6). destruct F as [F1 F2 F3 F4 F5 F6].
      assert (NV : ~ In v (discovered t)). { intros X. apply F2 in X. rewrite color_dset, eqb_refl in X. destruct X; discriminate. }
      constructor; rewrite ?P1, ?P2, ?P3, ?P4, ?P5, ?P6.
      + constructor; assumption.
      + intros x. rewrite color_dset. destruct (eqb_spec x v) as [->|N]; [auto|]. intros [X|X]; [congruence|]. apply F2 in X. rewrite color_dset in X.
        rewrite (proj2 (eqb_neq x v) N) in X. exact X.
      + intros x N. rewrite color_dset. destruct (eqb_spec x v) as [->|N']; [destruct N; left; reflexivity|]. rewrite F3 by (cbn in N; tauto).
        rewrite color_dset, (proj2 (eqb_neq x v) N'). reflexivity.
      + intros x. rewrite In_dkeys_dset, F4, In_dkeys_dset. cbn. intuition.
      + rewrite F5. symmetry. apply Permutation_cons_append.
      + exact F6.
    - intros. apply facts_asks. constructor.
    - intros u e es c t1 c1 t2 c2 W _ F1 _ F2. change (Examine e :: Tree e :: t1 ++ asks u ++ t2) with ([Examine e; Tree e] ++ t1 ++ asks u ++ t2).
      eapply facts_trans; [apply facts_edge; auto|]. eapply facts_trans; [exact F1|]. eapply facts_trans; [apply facts_asks, asks_ask|exact F2].
    - intros u e es c t c' G _ F. change (Examine e :: Back e :: t) with ([Examine e; Back e] ++ t). eapply facts_trans; [apply facts_edge; auto|exact F].
    - intros u e es c t c' G _ F. change (Examine e :: ForwardOrCross e :: t) with ([Examine e; ForwardOrCross e] ++ t). eapply facts_trans; [apply facts_edge; auto|exact F].
  Qed.

  (** the examined edges; the discovered vertices are the targets of the tree edges; they are reachable *)
  Lemma run_edges :
    (forall v c a t c', vrun v c a t c' -> Permutation (examined t) (flat_map u_edges (discovered t)) /\ discovered t = v :: map target (tree_edges t) /\
    (forall x, In x (discovered t) -> steps next v x)) /\
    (forall u es c t c', eruns u es c t c' -> Permutation (examined t) (es ++ flat_map u_edges (discovered t)) /\ discovered t = map target (tree_edges t) /\
    (forall x, In x (discovered t) -> exists e, In e es /\ steps next (target e) x)).
  Proof.
    apply run_ind.
    - intros v c a t c' A W _ (H1 & H2 & H3). destruct (vproj v a t A) as (P1 & P2 & P3 & P4 & P5 & P6). rewrite P1, P3, P4. cbn [flat_map].
      split; [exact (Permutation_trans H1 (Permutation_refl _))|]. split; [rewrite H2; reflexivity|]. intros x [<-|X]; [constructor|]. apply H3 in X. destruct X as (e & I & X). econstructor; [|exact X].
      apply In_u_edges, I.
    - intros u c. cbn. split; [constructor|]. split; [reflexivity|intros x []].
    - intros u e es c t1 c1 t2 c2 W _ (A1 & A2 & A3) _ (B1 & B2 & B3). destruct (tproj e t1 _ t2 (asks_ask u)) as (P1 & P2 & P3 & P4 & P5 & P6).
      rewrite P1, P3, P4. split; [|split].
      + apply perm_skip. rewrite A1, B1, flat_map_app. apply Permutation_app_swap_app.
      + rewrite A2 at 1. rewrite B2 at 1. cbn [map]. rewrite map_app. reflexivity.
      + intros x. rewrite in_app_iff. intros [X|X]; [exists e; split; [left; reflexivity|apply A3, X]|]. destruct (B3 x X) as (e' & I & Y). exists e'. split; [right; exact I|exact Y].
    - intros u e es c t c' G _ (B1 & B2 & B3). cbn. split; [apply perm_skip, B1|]. split; [exact B2|]. intros x X. destruct (B3 x X) as (e' & I & Y). exists e'. split; [right; exact I|exact Y].
    - intros u e es c t c' G _ (B1 & B2 & B3). cbn. split; [apply perm_skip, B1|]. split; [exact B2|]. intros x X. destruct (B3 x X) as (e' & I & Y). exists e'. split; [right; exact I|exact Y].
  Qed.

  (** nothing white is left behind *)
  Lemma run_closed :
    (forall v c a t c', vrun v c a t c' -> forall x y, In x (discovered t) -> next x y -> color_of c' y <> WHITE) /\
    (forall u es c t c', eruns u es c t c' -> (forall e, In e es -> color_of c' (target e) <> WHITE) /\ forall x y, In x (discovered t) -> next x y -> color_of c' y <> WHITE).
  Proof.
    assert (NX : forall x y, next x y -> exists e, In e (u_edges x) /\ target e = y).
    { intros x y (e & I & P & T). exists e. split; [apply filter_In; split; assumption|exact T]. }
    apply run_ind.
    - intros v c a t c' A W _ (H1 & H2) x y. destruct (vproj v a t A) as (P1 & _). rewrite P1, color_dset.
      intros X Y. destruct (eqb_spec y v); [discriminate|]. destruct X as [<-|X]; [|apply (H2 x y X Y)]. apply NX in Y. destruct Y as (e & I & <-). apply H1, I.
    - intros u c. cbn. split; [intros e []|intros x y []].
    - intros u e es c t1 c1 t2 c2 W V1 A V2 (B1 & B2). pose proof (proj1 run_facts _ _ _ _ _ V1) as F1. pose proof (proj2 run_facts _ _ _ _ _ V2) as F2.
      destruct (tproj e t1 _ t2 (asks_ask u)) as (P1 & _). split.
      + intros e' [<-|I]; [|apply B1, I]. assert (X : color_of c1 (target e) = BLACK).
        { apply (f_disc _ _ _ F1). rewrite (proj1 (proj2 (proj1 run_edges _ _ _ _ _ V1))). left. reflexivity. }
        rewrite (nonwhite _ _ _ _ F2); rewrite X; discriminate.
      + intros x y. rewrite P1, in_app_iff. intros [X|X] Y; [|apply (B2 x y X Y)]. pose proof (A x y X Y) as N. rewrite (nonwhite _ _ _ _ F2 N). exact N.
    - intros u e es c t c' G V (B1 & B2). pose proof (proj2 run_facts _ _ _ _ _ V) as F. split; [|exact B2].
      intros e' [<-|I]; [|apply B1, I]. rewrite (nonwhite _ _ _ _ F); rewrite G; discriminate.
    - intros u e es c t c' G V (B1 & B2). pose proof (proj2 run_facts _ _ _ _ _ V) as F. split; [|exact B2].
      intros e' [<-|I]; [|apply B1, I]. rewrite (nonwhite _ _ _ _ F); rewrite G; discriminate.
  Qed.

  (** ** Termination *)
  Definition white (c : colors) (V : list nat) : nat := length (filter (fun v => eqb (color_of c v) WHITE) V).
  Lemma white_le c t c' V : @facts E c t c' -> white c' V <= white c V.
  Proof.
    intros F. unfold white. induction V as [|x V IH]; cbn; [lia|]. destruct (eqb_spec (color_of c' x) WHITE) as [W|W].
    - assert (X : color_of c x = WHITE).
      { destruct (in_dec' x (discovered t)) as [X|X]; [apply (f_disc _ _ _ F), X|]. rewrite <- (f_other _ _ _ F x X). exact W. }
      rewrite X. cbn. lia.
    - destruct (eqb (color_of c x) WHITE); cbn; lia.
  Qed.
  Lemma white_lt c v x V : In v V -> color_of c v = WHITE -> x <> WHITE -> white (dset c v x) V < white c V.
  Proof.
    intros I W N. unfold white. assert (LE : forall V, length (filter (fun y => eqb (color_of (dset c v x) y) WHITE) V) <= length (filter (fun y => eqb (color_of c y) WHITE) V)).
    { clear V I. induction V as [|y V IH]; cbn; [lia|]. rewrite color_dset. destruct (eqb_spec y v) as [->|]; [rewrite (proj2 (eqb_neq x WHITE) N); rewrite W; cbn; lia|].
      destruct (eqb (color_of c y) WHITE); cbn; lia. }
    induction V as [|y V IH]; [destruct I|]. cbn. rewrite color_dset. destruct (eqb_spec y v) as [->|NE].
    - rewrite (proj2 (eqb_neq x WHITE) N), W. cbn. specialize (LE V). lia.
    - destruct I as [I|I]; [congruence|]. specialize (IH I). destruct (eqb (color_of c y) WHITE); cbn; lia.
  Qed.

  Variable V : list nat.
  Hypothesis CV : closed_set out_edges target if_push V.
  Lemma run_exists n : (forall v c a, Forall is_ask a -> In v V -> color_of c v = WHITE -> white c V <= n -> exists t c', vrun v c a t c') /\
    (forall u es c, In u V -> incl es (u_edges u) -> white c V <= n -> exists t c', eruns u es c t c').
  Proof.
    assert (EX : forall n, (forall v c a, Forall is_ask a -> In v V -> color_of c v = WHITE -> white c V <= n -> exists t c', vrun v c a t c') ->
      forall u es c, In u V -> incl es (u_edges u) -> white c V <= n -> exists t c', eruns u es c t c').
    { clear n. intros n HV u es. induction es as [|e es IH]; intros c I EI L.
      - exists [], c. constructor.
      - assert (I' : In (target e) V). { apply (CV u _ I). apply In_u_edges, EI. left. reflexivity. }
        assert (EI' : incl es (u_edges u)) by (intros x X; apply EI; right; exact X).
        destruct (color_of c (target e)) eqn:C.
        + destruct (HV (target e) c (asks (target e)) (asks_ask _) I' C L) as (t1 & c1 & V1). pose proof (white_le _ _ _ V (proj1 run_facts _ _ _ _ _ V1)) as L1.
          destruct (IH c1 I EI') as (t2 & c2 & V2); [lia|]. do 2 eexists. eapply er_white; eassumption.
        + destruct (IH c I EI' L) as (t2 & c2 & V2). do 2 eexists. eapply er_gray; eassumption.
        + destruct (IH c I EI' L) as (t2 & c2 & V2). do 2 eexists. eapply er_black; eassumption. }
    induction n as [|n [IHv IHe]].
    - split; [|apply EX]; intros v c a A I W L; exfalso; pose proof (white_lt c v GRAY V I W); assert (GRAY <> WHITE) by discriminate; intuition lia.
    - assert (HV : forall v c a, Forall is_ask a -> In v V -> color_of c v = WHITE -> white c V <= S n -> exists t c', vrun v c a t c').
      { intros v c a A I W L. destruct (IHe v (u_edges v) (dset c v GRAY) I) as (t & c' & R).
        - apply incl_refl.
        - pose proof (white_lt c v GRAY V I W ltac:(discriminate)). lia.
        - do 2 eexists. econstructor; eassumption. }
      split; [exact HV|apply EX, HV].
  Qed.
  Lemma vrun_exists v c a : Forall is_ask a -> In v V -> color_of c v = WHITE -> exists t c', vrun v c a t c'.
  Proof. intros A I W. eapply (proj1 (run_exists _)); eauto. Qed.
End Run.
