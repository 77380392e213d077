(** Lemmas on depth_first_search: ancestors, finishing order, several sources. *)
From Verif Require Import Base BaseProofs Search SearchSpec SearchProofs.
#[local] Arguments dkeys : simpl never.

Section Run.
  Context {E : Type}.
  Variables (out_edges : nat -> list E) (target source : E -> nat) (if_push : E -> bool).
  Hypothesis SRC : forall u e, In e (out_edges u) -> source e = u.
  Notation u_edges := (u_edges out_edges if_push).
  Notation asks := (@asks E out_edges).
  Notation next := (next out_edges target if_push).
  Notation ev := (event E).
  Notation vrun := (vrun out_edges target if_push).
  Notation eruns := (eruns out_edges target if_push).

  Notation down := (@down E source target).
  Lemma down_sub t t' : incl (tree_edges t) (tree_edges t') -> forall a b, steps (down t) a b -> steps (down t') a b.
  Proof. intros H. apply steps_sub. intros x y (e & I & Z). exists e. split; [apply H, I|exact Z]. Qed.

  Lemma u_edges_src u e : In e (u_edges u) -> source e = u.
  Proof. intros I. apply filter_In in I. apply SRC, I. Qed.

  Lemma run_back :
    (forall v c a t c', vrun v c a t c' -> (forall x, In x (discovered t) -> steps (down t) v x) /\
       forall e, In e (back_edges t) -> In (source e) (discovered t) /\ (color_of c (target e) = GRAY \/ In (target e) (discovered t) /\ steps (down t) (target e) (source e))) /\
    (forall u es c t c', eruns u es c t c' -> incl es (u_edges u) -> (forall x, In x (discovered t) -> steps (down t) u x) /\
       forall e, In e (back_edges t) -> (source e = u \/ In (source e) (discovered t)) /\ (color_of c (target e) = GRAY \/ In (target e) (discovered t) /\ steps (down t) (target e) (source e))).
  Proof.
    apply run_ind.
    - intros v c a t c' A W R H. destruct (H (incl_refl _)) as [H1 H2]. destruct (vproj v a t A) as (P1 & P2 & P3 & P4 & P5 & P6). rewrite P1, P5.
      set (T := Discover v :: a ++ t ++ [Finish v]) in *.
      assert (DS : forall x y, steps (down t) x y -> steps (down T) x y) by (apply down_sub; rewrite P4; apply incl_refl).
      assert (H1' : forall x, In x (v :: discovered t) -> steps (down T) v x) by (intros x [<-|X]; [constructor|apply DS, H1, X]).
      split; [exact H1'|]. intros e I. destruct (H2 e I) as [S G].
      assert (S' : In (source e) (v :: discovered t)) by (destruct S as [S|S]; [left; symmetry; exact S|right; exact S]). split; [exact S'|].
      destruct G as [G|[G1 G2]]; [|right; split; [right; exact G1|apply DS, G2]]. rewrite color_dset in G. destruct (eqb_spec (target e) v) as [EQ|N]; [|left; exact G].
      right. rewrite EQ. split; [left; reflexivity|apply H1', S'].
    - intros u c _. split; [intros x []|intros e []].
    - intros u e es c t1 c1 t2 c2 W V1 [A1 A2] V2 B I. destruct (B (fun x X => I x (or_intror X))) as [B1 B2]. clear B.
      destruct (tproj e t1 _ t2 (asks_ask out_edges u)) as (P1 & P2 & P3 & P4 & P5 & P6). rewrite P1, P5. set (T := Examine e :: Tree e :: t1 ++ asks u ++ t2) in *.
      assert (D1 : forall x y, steps (down t1) x y -> steps (down T) x y) by (apply down_sub; rewrite P4; intros x X; right; apply in_or_app; left; exact X).
      assert (D2 : forall x y, steps (down t2) x y -> steps (down T) x y) by (apply down_sub; rewrite P4; intros x X; right; apply in_or_app; right; exact X).
      pose proof (proj1 (run_facts out_edges target if_push) _ _ _ _ _ V1) as F1.
      split.
      + intros x X. apply in_app_or in X. destruct X as [X|X]; [|apply D2, B1, X]. econstructor; [|apply D1, A1, X]. exists e.
        split; [rewrite P4; left; reflexivity|]. split; [apply u_edges_src, I; left; reflexivity|reflexivity].
      + intros e' X. apply in_app_or in X. destruct X as [X|X].
        * destruct (A2 e' X) as [S G]. split; [right; apply in_or_app; left; exact S|]. destruct G as [G|[G1 G2]]; [left; exact G|right].
          split; [apply in_or_app; left; exact G1|apply D1, G2].
        * destruct (B2 e' X) as [S G]. split; [destruct S as [S|S]; [left; exact S|right; apply in_or_app; right; exact S]|].
          destruct G as [G|[G1 G2]]; [|right; split; [apply in_or_app; right; exact G1|apply D2, G2]]. left.
          destruct (in_dec' (target e') (discovered t1)) as [Y|Y]; [apply (f_disc _ _ _ F1) in Y; destruct Y; congruence|]. rewrite <- (f_other _ _ _ F1 _ Y). exact G.
    - intros u e es c t c' G V B I. destruct (B (fun x X => I x (or_intror X))) as [B1 B2]. clear B. split; [exact B1|].
      intros e' [<-|X]; [|apply B2, X]. split; [left; apply u_edges_src, I; left; reflexivity|left; exact G].
    - intros u e es c t c' G V B I. destruct (B (fun x X => I x (or_intror X))) as [B1 B2]. split; [exact B1|exact B2].
  Qed.

  (** ** The finishing order *)
  (** the successors of each element are in [P] or before it *)
  Fixpoint ordered (P : nat -> Prop) (F : list nat) : Prop :=
    match F with [] => True | x :: F' => (forall y, next x y -> P y) /\ ordered (fun y => P y \/ y = x) F' end.
  Lemma ordered_ext F : forall P Q : nat -> Prop, (forall x, P x -> Q x) -> ordered P F -> ordered Q F.
  Proof.
    induction F as [|x F IH]; intros P Q H; cbn; [trivial|]. intros [H1 H2]. split; [intros y Y; apply H, H1, Y|]. eapply IH; [|exact H2].
    intros y [Y|Y]; [left; apply H, Y|right; exact Y].
  Qed.
  Lemma ordered_app F : forall (P : nat -> Prop) F', ordered P F -> ordered (fun y => P y \/ In y F) F' -> ordered P (F ++ F').
  Proof.
    induction F as [|x F IH]; intros P F' H1 H2; cbn.
    - eapply ordered_ext; [|exact H2]. intros y [Y|[]]. exact Y.
    - destruct H1 as [H0 H1]. split; [exact H0|]. apply IH; [exact H1|]. eapply ordered_ext; [|exact H2]. intros y [Y|[Y|Y]]; auto.
  Qed.
  Lemma ordered_split F : forall (P : nat -> Prop), ordered P F -> forall F1 x F2 y, F = F1 ++ x :: F2 -> next x y -> P y \/ In y F1.
  Proof.
    induction F as [|z F IH]; intros P H F1 x F2 y EQ N; [destruct F1; discriminate|]. destruct H as [H0 H1]. destruct F1 as [|z' F1]; injection EQ as -> EQ.
    - left. apply H0, N.
    - destruct (IH _ H1 F1 x F2 y EQ N) as [[X|X]|X]; [left; exact X|right; left; symmetry; exact X|right; right; exact X].
  Qed.
  Lemma steps_in (P : nat -> Prop) : (forall x y, P x -> next x y -> P y) -> forall x y, steps next x y -> P x -> P y.
  Proof. intros H x y. induction 1; eauto. Qed.
  Lemma ordered_acyclic F : forall P : nat -> Prop, (forall x y, P x -> next x y -> P y) -> (forall x, In x F -> ~ P x) -> NoDup F -> ordered P F ->
    forall x, In x F -> ~ plus next x x.
  Proof.
    induction F as [|z F IH]; intros P C D ND H x X (y & N & S); [destruct X|]. destruct H as [H0 H1]. inversion ND as [|? ? NZ NF]; subst. destruct X as [->|X].
    - apply (D x (or_introl eq_refl)). apply (steps_in P C y x S). apply H0, N.
    - apply (IH (fun y => P y \/ y = z)) with (x := x); try assumption.
      + intros a b [A| ->] B; [left; apply (C a b A B)|left; apply H0, B].
      + intros a A [B| ->]; [apply (D a (or_intror A) B)|exact (NZ A)].
      + exists y. split; assumption.
  Qed.

  Lemma run_order :
    (forall v c a t c', vrun v c a t c' -> back_edges t = [] -> ordered (fun x => color_of c x = BLACK) (finished t)) /\
    (forall u es c t c', eruns u es c t c' -> back_edges t = [] -> ordered (fun x => color_of c x = BLACK) (finished t) /\ forall e, In e es -> color_of c' (target e) = BLACK).
  Proof.
    apply run_ind.
    - intros v c a t c' A W R H. destruct (vproj v a t A) as (P1 & P2 & P3 & P4 & P5 & P6). rewrite P2, P5. intros B. destruct (H B) as [H1 H2].
      pose proof (proj2 (run_facts out_edges target if_push) _ _ _ _ _ R) as F.
      apply ordered_app.
      + eapply ordered_ext; [|exact H1]. intros x. cbn. rewrite color_dset. destruct (eqb x v); [discriminate|trivial].
      + cbn. split; [|trivial]. intros y (e & I & P & <-). assert (X : color_of c' (target e) = BLACK) by (apply H2, filter_In; split; assumption).
        destruct (in_dec' (target e) (discovered t)) as [Y|Y].
        * right. apply (Permutation_in _ (Permutation_sym (f_fin _ _ _ F))). exact Y.
        * left. rewrite (f_other _ _ _ F _ Y), color_dset in X. destruct (eqb (target e) v); [discriminate|exact X].
    - intros u c _. split; [exact I|intros e []].
    - intros u e es c t1 c1 t2 c2 W V1 A V2 B. destruct (tproj e t1 _ t2 (asks_ask out_edges u)) as (P1 & P2 & P3 & P4 & P5 & P6). rewrite P2, P5. intros BB.
      apply app_eq_nil in BB. destruct BB as [BA BB]. specialize (A BA). destruct (B BB) as [B1 B2].
      pose proof (proj1 (run_facts out_edges target if_push) _ _ _ _ _ V1) as F1. pose proof (proj2 (run_facts out_edges target if_push) _ _ _ _ _ V2) as F2. split.
      + apply ordered_app; [exact A|]. apply (ordered_ext _ (fun x => color_of c1 x = BLACK)); [|exact B1]. intros x X. destruct (in_dec' x (discovered t1)) as [Y|Y].
        * right. apply (Permutation_in _ (Permutation_sym (f_fin _ _ _ F1))). exact Y.
        * left. rewrite <- (f_other _ _ _ F1 _ Y). exact X.
      + intros e' [<-|I]; [|apply B2, I]. assert (X : color_of c1 (target e) = BLACK).
        { apply (f_disc _ _ _ F1). rewrite (proj1 (proj2 (proj1 (run_edges out_edges target if_push) _ _ _ _ _ V1))). left. reflexivity. }
        rewrite (nonwhite _ _ _ _ F2); rewrite X; [reflexivity|discriminate].
    - intros u e es c t c' G V B BB. discriminate BB.
    - intros u e es c t c' G V B BB. destruct (B BB) as [B1 B2]. pose proof (proj2 (run_facts out_edges target if_push) _ _ _ _ _ V) as F. split; [exact B1|].
      intros e' [<-|I]; [|apply B2, I]. rewrite (nonwhite _ _ _ _ F); rewrite G; [reflexivity|discriminate].
  Qed.

  (** ** Several sources *)
  Inductive sruns : list nat -> colors -> list ev -> colors -> Prop :=
  | sr_nil c : sruns [] c [] c
  | sr_white u l c t c1 t' c2 : color_of c u = WHITE -> vrun u c (asks u ++ asks u) t c1 -> sruns l c1 t' c2 -> sruns (u :: l) c ((Start u :: t) ++ t') c2
  | sr_other u l c t c' : color_of c u <> WHITE -> sruns l c t c' -> sruns (u :: l) c t c'.

  Lemma facts_start c v t c' : @facts E c t c' -> facts c (Start v :: t) c'.
  Proof. intros [F1 F2 F3 F4 F5 F6]. constructor; assumption. Qed.
  Lemma sruns_facts l c t c' : sruns l c t c' -> facts c t c'.
  Proof.
    induction 1 as [c|u l c t c1 t' c2 W V R IH|u l c t c' W R IH].
    - apply facts_asks. constructor.
    - eapply facts_trans; [apply facts_start, (proj1 (run_facts out_edges target if_push) _ _ _ _ _ V)|exact IH].
    - exact IH.
  Qed.

  Lemma dfs_sources_run {St} (vis : event E -> St -> res St) l c t c' : sruns l c t c' -> exists k, forall st fuel, k <= fuel ->
    dfs_sources out_edges target if_push vis fuel l c st = after vis t st (fun st => Some (Ok (c', st))).
  Proof.
    induction 1 as [c|u l c t c1 t' c2 W V R [k IH]|u l c t c' W R [k IH]].
    - exists 0. reflexivity.
    - destruct (dfs_run out_edges target if_push vis u c t c1 V) as (k1 & H1). exists (max k k1). intros st fuel L. cbn [dfs_sources].
      destruct (color_read_white c u W) as [R1 R2]. destruct (color_read c u) as [x cc]. cbn [fst snd] in *. subst x.
      assert (EQ : depth_first_search out_edges target if_push vis fuel u cc st = depth_first_search out_edges target if_push vis fuel u c st).
      { unfold depth_first_search. rewrite R2. reflexivity. }
      rewrite EQ, H1 by lia. rewrite after_app. unfold after. destruct (calls vis (Start u :: t) st) as [st'|]; [|reflexivity]. rewrite IH by lia. reflexivity.
    - exists k. intros st fuel L. cbn [dfs_sources]. rewrite (color_read_other c u W). destruct (color_of c u); [contradiction| |]; apply IH, L.
  Qed.

  Variable V : list nat.
  Hypothesis CV : closed_set out_edges target if_push V.
  Lemma sruns_exists l : incl l V -> forall c, exists t c', sruns l c t c'.
  Proof.
    induction l as [|u l IH]; intros I c; [do 2 eexists; constructor|]. assert (I' : incl l V) by (intros x X; apply I; right; exact X).
    destruct (eq_dec (color_of c u) WHITE) as [W|W].
    - destruct (vrun_exists out_edges target if_push V CV u c (asks u ++ asks u)) as (t & c1 & R); [apply Forall_app; split; apply asks_ask|apply I; left; reflexivity|exact W|].
      destruct (IH I' c1) as (t' & c2 & R'). do 2 eexists. eapply sr_white; eassumption.
    - destruct (IH I' c) as (t & c' & R). do 2 eexists. eapply sr_other; eassumption.
  Qed.

  (** the black vertices are closed, there is no gray one *)
  Definition settled (c : colors) : Prop := (forall x, color_of c x <> GRAY) /\ forall x y, color_of c x = BLACK -> next x y -> color_of c y = BLACK.
  Lemma vrun_settled v c a t c' : vrun v c a t c' -> settled c -> settled c'.
  Proof.
    intros R [S1 S2]. pose proof (proj1 (run_facts out_edges target if_push) _ _ _ _ _ R) as F. pose proof (proj1 (run_closed out_edges target if_push) _ _ _ _ _ R) as CL.
    assert (G : forall x, color_of c' x <> GRAY).
    { intros x X. destruct (in_dec' x (discovered t)) as [Y|Y]; [apply (f_disc _ _ _ F) in Y; destruct Y; congruence|]. rewrite (f_other _ _ _ F _ Y) in X. exact (S1 x X). }
    split; [exact G|]. intros x y X N. destruct (in_dec' x (discovered t)) as [Y|Y].
    - specialize (CL x y Y N). specialize (G y). destruct (color_of c' y); [contradiction|contradiction|reflexivity].
    - rewrite (f_other _ _ _ F _ Y) in X. specialize (S2 x y X N). rewrite (nonwhite _ _ _ _ F); rewrite S2; [reflexivity|discriminate].
  Qed.
  Lemma sruns_settled l c t c' : sruns l c t c' -> settled c -> settled c' /\ (forall u, In u l -> color_of c' u = BLACK) /\
    (forall x, In x (discovered t) -> exists u, In u l /\ steps next u x) /\ Permutation (examined t) (flat_map u_edges (discovered t)) /\
    (forall e, In e (back_edges t) -> In (source e) (discovered t) /\ In (target e) (discovered t) /\ steps (down t) (target e) (source e)) /\
    (back_edges t = [] -> ordered (fun x => color_of c x = BLACK) (finished t)).
  Proof.
    induction 1 as [c|u l c t c1 t' c2 W R SR IH|u l c t c' W SR IH]; intros S.
    - split; [exact S|]. split; [intros x []|]. split; [intros x []|]. split; [constructor|]. split; [intros x []|]. intros _. exact I.
    - pose proof (proj1 (run_facts out_edges target if_push) _ _ _ _ _ R) as F. pose proof (sruns_facts _ _ _ _ SR) as F'. pose proof (vrun_settled _ _ _ _ _ R S) as S1.
      destruct (IH S1) as (S2 & H1 & H2 & H3 & H4 & H5). destruct (proj1 (run_edges out_edges target if_push) _ _ _ _ _ R) as (E1 & E2 & E3).
      destruct (proj1 run_back _ _ _ _ _ R) as (K1 & K2). pose proof (proj1 run_order _ _ _ _ _ R) as K3.
      change ((Start u :: t) ++ t') with ([Start u] ++ t ++ t'). set (T := [Start u] ++ t ++ t') in *.
      assert (PD : discovered T = discovered t ++ discovered t') by (unfold T; rewrite !disc_app; reflexivity).
      assert (PE : examined T = examined t ++ examined t') by (unfold T; rewrite !exam_app; reflexivity).
      assert (PB : back_edges T = back_edges t ++ back_edges t') by (unfold T; rewrite !back_app; reflexivity).
      assert (PT : tree_edges T = tree_edges t ++ tree_edges t') by (unfold T; rewrite !tree_app; reflexivity).
      assert (PF : finished T = finished t ++ finished t') by (unfold T; rewrite !fin_app; reflexivity).
      rewrite PD, PE, PB, PF.
      split; [exact S2|]. split; [|split; [|split; [|split]]].
      + intros x [<-|X]; [|apply H1, X]. assert (Y : color_of c1 u = BLACK) by (apply (f_disc _ _ _ F); rewrite E2; left; reflexivity).
        rewrite (nonwhite _ _ _ _ F'); rewrite Y; [reflexivity|discriminate].
      + intros x X. apply in_app_or in X. destruct X as [X|X]; [exists u; split; [left; reflexivity|apply E3, X]|]. destruct (H2 x X) as (u' & I & Y). exists u'. split; [right; exact I|exact Y].
      + rewrite flat_map_app. apply Permutation_app; assumption.
      + intros e X. apply in_app_or in X. destruct X as [X|X].
        * destruct (K2 e X) as [Y1 [Y2|[Y2 Y3]]]; [destruct (proj1 S _ Y2)|]. repeat split; try (apply in_or_app; left; assumption).
          revert Y3. apply down_sub. rewrite PT. intros z Z. apply in_or_app. left. exact Z.
        * destruct (H4 e X) as (Y1 & Y2 & Y3). repeat split; try (apply in_or_app; right; assumption).
          revert Y3. apply down_sub. rewrite PT. intros z Z. apply in_or_app. right. exact Z.
      + intros BB. apply app_eq_nil in BB. destruct BB as [BA BB]. apply ordered_app; [apply K3, BA|]. apply (ordered_ext _ (fun x => color_of c1 x = BLACK)); [|apply H5, BB]. intros x X.
        destruct (in_dec' x (discovered t)) as [Y|Y].
        * right. apply (Permutation_in _ (Permutation_sym (f_fin _ _ _ F))). exact Y.
        * left. rewrite <- (f_other _ _ _ F _ Y). exact X.
    - destruct (IH S) as (S2 & H1 & H2 & H3 & H4 & H5). pose proof (sruns_facts _ _ _ _ SR) as F'. split; [exact S2|]. split; [|split; [|split; [|split]]]; try assumption.
      + intros x [<-|X]; [|apply H1, X]. assert (Y : color_of c u = BLACK) by (pose proof (proj1 S u); destruct (color_of c u); [contradiction|contradiction|reflexivity]).
        rewrite (nonwhite _ _ _ _ F'); rewrite Y; [reflexivity|discriminate].
      + intros x X. destruct (H2 x X) as (u' & I & Y). exists u'. split; [right; exact I|exact Y].
  Qed.
  Lemma steps_back {X} (R : X -> X -> Prop) x y z : steps R x y -> R y z -> plus R x z.
  Proof. intros S N. destruct S as [x|x y' y R1 S]; [exists z; split; [exact N|constructor]|]. exists y'. split; [exact R1|]. eapply steps_trans; [exact S|apply steps_one, N]. Qed.
  Lemma plus_steps {X} (R : X -> X -> Prop) x y z : plus R x y -> steps R y z -> plus R x z.
  Proof. intros (w & A & B) S. exists w. split; [exact A|]. eapply steps_trans; eassumption. Qed.
End Run.
