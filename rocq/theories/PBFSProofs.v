(** The parallel BFS on two fixed automata: which events happen. *)
From Verif Require Import Base BaseProofs Graph GraphProofs Automaton AutomatonSpec AutomatonProofs Trie PBFS.
#[local] Arguments dkeys : simpl never.

Lemma foreach_app {S X} (f : S -> X -> S * res unit) l1 : forall l2 s,
  foreach f s (l1 ++ l2) = match foreach f s l1 with (s', Ok _) => foreach f s' l2 | r => r end.
Proof.
  induction l1 as [|x l1 IH]; intros l2 s; cbn; [reflexivity|].
  destruct (f s x) as [s' [u|e]]; [apply IH|reflexivity].
Qed.

Lemma foreach_ok_tt {S X} (f : S -> X -> S * res unit) l : forall s s' u, foreach f s l = (s', Ok u) -> foreach f s l = (s', Ok tt).
Proof. intros s s' [] E. exact E. Qed.

Lemma color_of_dset {K} `{EqDec K} (m : dict K color) k c k' :
  color_of (dset m k c) k' = if eqb k' k then c else color_of m k'.
Proof. unfold color_of. rewrite dget_dset. destruct (eqb k' k); reflexivity. Qed.

Lemma is_white_spec c : is_white c = true <-> c = WHITE.
Proof. destruct c; cbn; split; congruence. Qed.

(** counting white elements of a finite universe *)
Lemma filter_length_le {X} (p q : X -> bool) l : (forall x, In x l -> p x = true -> q x = true) ->
  length (filter p l) <= length (filter q l).
Proof.
  induction l as [|x l IH]; intros F; cbn; [lia|].
  assert (IHl : length (filter p l) <= length (filter q l)) by (apply IH; intros y Iy; apply F; right; exact Iy).
  pose proof (F x (or_introl eq_refl)). destruct (p x); [rewrite H by reflexivity|destruct (q x)]; cbn; lia.
Qed.

Lemma filter_split_count {X} `{EqDec X} (p q : X -> bool) (D U : list X) :
  NoDup D -> NoDup U -> (forall x, In x D -> In x U /\ q x = true) ->
  (forall x, In x U -> p x = true -> q x = true /\ ~ In x D) ->
  length (filter p U) + length D <= length (filter q U).
Proof.
  intros ND NU HD HP. rewrite Nat.add_comm, <- app_length. apply NoDup_incl_length.
  - apply NoDup_app_intro; [exact ND|apply NoDup_filter; exact NU|].
    intros x I1 I2. apply filter_In in I2. destruct I2 as [I2 P2]. apply (HP x I2 P2). exact I1.
  - intros x I. apply in_app_iff in I. apply filter_In. destruct I as [I|I].
    + apply HD. exact I.
    + apply filter_In in I. destruct I as [I P2]. split; [exact I|]. apply (HP x I P2).
Qed.

Section P.
  Context {A : Type} {EA : EqDec A}.

  Lemma In_sigma (g : aut A) q a : In a (A_sigma g q) <-> odelta g q a <> None.
  Proof.
    destruct q as [q|]; cbn; [|split; [intros []|congruence]]. unfold A_delta.
    destruct (dget (au_adj g) q) as [d|]; [|split; [intros []|congruence]]. rewrite In_sof.
    destruct (dget d a) eqn:E.
    - split; [discriminate|]. intros _. eapply dget_Some_key. exact E.
    - apply dget_None in E. split; [contradiction|congruence].
  Qed.

  Section Trace.
    Variable g1 g2 : aut A.
    Variable ord : set_order A.
    Variable ip : medge -> medge -> bool.

    Definition succ (p : qpair) (a : A) : qpair := (odelta g1 (fst p) a, odelta g2 (snd p) a).
    Definition live (p : qpair) : Prop := p <> (None, None).

    Inductive event := EvEdge (p : qpair) (a : A) | EvVertex (p : qpair).

    Fixpoint tsym (p : qpair) (syms : list A) (stack : list qpair) (col : dict qpair color)
        : list event * list qpair * dict qpair color :=
      match syms with
      | [] => ([], stack, col)
      | a :: syms' =>
          if is_white (color_of col (succ p a)) then
            let '(ev, st, c) := tsym p syms'
              (if ip (get_edge g1 (fst p) a) (get_edge g2 (snd p) a) then stack ++ [succ p a] else stack)
              (dset col (succ p a) GRAY) in
            (EvEdge p a :: EvVertex (succ p a) :: ev, st, c)
          else
            let '(ev, st, c) := tsym p syms' stack col in (EvEdge p a :: ev, st, c)
      end.

    Definition syms_of (n : nat) (p : qpair) : list A := ord n (sunion (A_sigma g1 (fst p)) (A_sigma g2 (snd p))).

    Fixpoint tloop (fuel n : nat) (stack : list qpair) (col : dict qpair color) : option (list event) :=
      match fuel with
      | 0 => None
      | S fuel' =>
          match stack with
          | [] => Some []
          | p :: stack' =>
              let '(ev, st, c) := tsym p (syms_of n p) stack' col in
              match tloop fuel' (S n) st (dset c p BLACK) with
              | None => None
              | Some ev' => Some (ev ++ ev')
              end
          end
      end.

    Section Sim.
      Context {St : Type}.
      Variable he : St -> medge -> medge -> A -> St * res unit.
      Variable hd : St -> option nat -> option nat -> St * res unit.
      Definition handle (s : St) (e : event) : St * res unit :=
        match e with
        | EvEdge p a => he s (get_edge g1 (fst p) a) (get_edge g2 (snd p) a) a
        | EvVertex p => hd s (fst p) (snd p)
        end.

      Lemma sim_sym p syms : forall s stack col,
        let '(ev, st, c) := tsym p syms stack col in
        (exists s', foreach handle s ev = (s', Ok tt) /\
           symbols (fun _ => g1) g2 he hd ip (fst p) (snd p) syms s stack col = (s', st, c, Ok tt)) \/
        (exists s' e x y, foreach handle s ev = (s', Raise e) /\
           symbols (fun _ => g1) g2 he hd ip (fst p) (snd p) syms s stack col = (s', x, y, Raise e)).
      Proof.
        induction syms as [|a syms IH]; intros s stack col; cbn [tsym symbols].
        - left. exists s. auto.
        - fold (succ p a). destruct (is_white (color_of col (succ p a))) eqn:W.
          + destruct (tsym p syms _ (dset col (succ p a) GRAY)) as [[ev st] c] eqn:E. cbn [foreach handle].
            destruct (he s _ _ a) as [s1 [u|e]].
            * cbn [foreach handle]. cbn [succ fst snd]. 
              destruct (hd s1 (odelta g1 (fst p) a) (odelta g2 (snd p) a)) as [s2 [u'|e]].
              -- specialize (IH s2 (if ip (get_edge g1 (fst p) a) (get_edge g2 (snd p) a) then stack ++ [succ p a] else stack) (dset col (succ p a) GRAY)).
                 rewrite E in IH. exact IH.
              -- right. eexists _, _, _, _. split; reflexivity.
            * right. eexists _, _, _, _. split; reflexivity.
          + destruct (tsym p syms stack col) as [[ev st] c] eqn:E. cbn [foreach handle].
            destruct (he s _ _ a) as [s1 [u|e]].
            * specialize (IH s1 stack col). rewrite E in IH. exact IH.
            * right. eexists _, _, _, _. split; reflexivity.
      Qed.

      Lemma sim_loop fuel : forall n stack col ev, tloop fuel n stack col = Some ev -> forall s,
        pbfs_loop (fun _ => g1) g2 ord he hd ip fuel n s stack col = Some (foreach handle s ev).
      Proof.
        induction fuel as [|fuel IH]; intros n stack col ev E s; cbn [tloop pbfs_loop] in *; [discriminate|].
        destruct stack as [|[q1 q2] stack]; [injection E as <-; reflexivity|].
        pose proof (sim_sym (q1, q2) (syms_of n (q1, q2)) s stack col) as SS. unfold syms_of in *. cbn [fst snd] in *.
        destruct (tsym (q1, q2) _ stack col) as [[ev1 st] c].
        destruct (tloop fuel (S n) st (dset c (q1, q2) BLACK)) as [ev2|] eqn:E2; [|discriminate]. injection E as <-.
        rewrite foreach_app. destruct SS as [(s' & -> & ->)|(s' & e & x & y & -> & ->)]; [|reflexivity].
        apply IH. exact E2.
      Qed.
    End Sim.

    (** ** Properties of the trace *)
    Definition discs (ev : list event) : list qpair :=
      flat_map (fun e => match e with EvVertex p => [p] | EvEdge _ _ => [] end) ev.

    Lemma discs_app l1 l2 : discs (l1 ++ l2) = discs l1 ++ discs l2.
    Proof. apply flat_map_app. Qed.
    Lemma In_discs ev p : In p (discs ev) <-> In (EvVertex p) ev.
    Proof.
      unfold discs. rewrite in_flat_map. split.
      - intros ([q a|q] & I & J); cbn in J; [destruct J|]. destruct J as [<-|[]]. exact I.
      - intros I. exists (EvVertex p). split; [exact I|left; reflexivity].
    Qed.

    Variable pp : qpair -> bool.

    Lemma tsym_spec p syms : (forall a, In a syms -> ip (get_edge g1 (fst p) a) (get_edge g2 (snd p) a) = pp (succ p a)) ->
      forall stack col ev st c, tsym p syms stack col = (ev, st, c) ->
      (forall q a, In (EvEdge q a) ev <-> q = p /\ In a syms) /\
      st = stack ++ filter pp (discs ev) /\ NoDup (discs ev) /\
      (forall q, In q (discs ev) -> color_of col q = WHITE /\ exists a, In a syms /\ q = succ p a) /\
      (forall a, In a syms -> In (succ p a) (discs ev) \/ color_of col (succ p a) <> WHITE) /\
      (forall q, In q (discs ev) -> color_of c q = GRAY) /\ (forall q, ~ In q (discs ev) -> color_of c q = color_of col q).
    Proof.
      induction syms as [|a syms IH]; intros PO stack col ev st c E; cbn [tsym] in E.
      - injection E as <- <- <-. cbn. rewrite app_nil_r. repeat split; try tauto; constructor.
      - assert (PO' : forall a0, In a0 syms -> ip (get_edge g1 (fst p) a0) (get_edge g2 (snd p) a0) = pp (succ p a0)) by (intros; apply PO; right; assumption).
        specialize (IH PO'). pose proof (PO a (or_introl eq_refl)) as Pa.
        destruct (is_white (color_of col (succ p a))) eqn:W.
        + apply is_white_spec in W.
          destruct (tsym p syms _ (dset col (succ p a) GRAY)) as [[ev1 st1] c1] eqn:E1. injection E as <- <- <-.
          destruct (IH _ _ _ _ _ E1) as (H1 & H2 & H3 & H4 & H5 & H6 & H7).
          change (discs (EvEdge p a :: EvVertex (succ p a) :: ev1)) with (succ p a :: discs ev1).
          assert (NI : ~ In (succ p a) (discs ev1)).
          { intros I. apply H4 in I. destruct I as [I _]. rewrite color_of_dset, eqb_refl in I. discriminate. }
          split; [|split; [|split; [|split; [|split; [|split]]]]].
          * intros q b. cbn [In]. rewrite H1. split.
            -- intros [X|[X|X]]; [injection X as <- <-|discriminate|]; tauto.
            -- intros [-> [<-|I]]; auto.
          * rewrite H2, Pa. cbn [filter]. destruct (pp (succ p a)); [rewrite <- app_assoc|]; reflexivity.
          * constructor; assumption.
          * intros q [<-|I]; [split; [exact W|exists a; split; [left|]; reflexivity]|].
            destruct (H4 q I) as [C (b & Ib & Eb)]. rewrite color_of_dset in C. destruct (eqb_spec q (succ p a)); [discriminate|].
            split; [exact C|]. exists b. split; [right; exact Ib|exact Eb].
          * intros b [<-|I]; [left; left; reflexivity|]. destruct (H5 b I) as [J|J]; [left; right; exact J|].
            rewrite color_of_dset in J. destruct (eqb_spec (succ p b) (succ p a)) as [Eb|]; [left; left; congruence|right; exact J].
          * intros q [<-|I]; [rewrite H7 by exact NI; rewrite color_of_dset, eqb_refl; reflexivity|apply H6; exact I].
          * intros q N. rewrite H7 by (intros X; apply N; right; exact X). rewrite color_of_dset.
            destruct (eqb_spec q (succ p a)) as [->|]; [exfalso; apply N; left; reflexivity|reflexivity].
        + assert (W' : color_of col (succ p a) <> WHITE) by (rewrite <- is_white_spec, W; discriminate).
          destruct (tsym p syms stack col) as [[ev1 st1] c1] eqn:E1. injection E as <- <- <-.
          destruct (IH _ _ _ _ _ E1) as (H1 & H2 & H3 & H4 & H5 & H6 & H7).
          change (discs (EvEdge p a :: ev1)) with (discs ev1).
          split; [|split; [|split; [|split; [|split; [|split]]]]]; try assumption.
          * intros q b. cbn [In]. rewrite H1. split.
            -- intros [X|X]; [injection X as <- <-|]; tauto.
            -- intros [-> [<-|I]]; auto.
          * intros q I. destruct (H4 q I) as [C (b & Ib & Eb)]. split; [exact C|]. exists b. split; [right; exact Ib|exact Eb].
          * intros b [<-|I]; [right; exact W'|]. apply H5. exact I.
    Qed.

    Variable p0 : qpair.

    (** explored pairs: the source, and the pushed successors of explored pairs *)
    Inductive expl : qpair -> Prop :=
    | expl_0 : expl p0
    | expl_S p a : expl p -> live (succ p a) -> pp (succ p a) = true -> expl (succ p a).

    Hypothesis push_ok : forall p a, expl p -> live (succ p a) ->
      ip (get_edge g1 (fst p) a) (get_edge g2 (snd p) a) = pp (succ p a).
    Hypothesis ord_ok : valid_order ord.

    Lemma In_syms_of n p a : In a (syms_of n p) <-> live (succ p a).
    Proof.
      unfold syms_of, live. assert (X : In a (ord n (sunion (A_sigma g1 (fst p)) (A_sigma g2 (snd p)))) <->
        In a (sunion (A_sigma g1 (fst p)) (A_sigma g2 (snd p)))).
      { split; apply Permutation_in; [|symmetry]; apply ord_ok. }
      rewrite X, In_sunion, !In_sigma. unfold succ.
      destruct (odelta g1 (fst p) a), (odelta g2 (snd p) a); split; intros Y; try congruence; try tauto;
        try (left; congruence); try (right; congruence).
    Qed.

    Record Inv (Pr Q : list qpair) (col : dict qpair color) (evs : list event) : Prop := {
      i_expl : forall p, In p (Pr ++ Q) -> expl p;
      i_col : forall p, color_of col p <> WHITE <-> In p Pr \/ In p (discs evs);
      i_nd : NoDup (discs evs);
      i_disc : forall p, In p (discs evs) -> exists q a, In q Pr /\ live (succ q a) /\ p = succ q a;
      i_push : forall p, In p (discs evs) -> pp p = true -> In p (Pr ++ Q);
      i_next : forall p a, In p Pr -> live (succ p a) -> In (EvEdge p a) evs /\ (In (succ p a) (discs evs) \/ In (succ p a) Pr);
      i_src : forall p, In p (Pr ++ Q) -> p = p0 \/ In p (discs evs);
      i_edge : forall p a, In (EvEdge p a) evs -> In p Pr /\ live (succ p a);
      i_p0 : In p0 (Pr ++ Q) }.

    Lemma Inv_step n Pr p Q col evs ev st c : Inv Pr (p :: Q) col evs -> tsym p (syms_of n p) Q col = (ev, st, c) ->
      Inv (p :: Pr) st (dset c p BLACK) (evs ++ ev).
    Proof.
      intros I E. assert (Ep : expl p) by (apply (i_expl _ _ _ _ I); apply in_app_iff; right; left; reflexivity).
      assert (PO : forall a, In a (syms_of n p) -> ip (get_edge g1 (fst p) a) (get_edge g2 (snd p) a) = pp (succ p a)).
      { intros a Ia. apply In_syms_of in Ia. apply push_ok; assumption. }
      destruct (tsym_spec p (syms_of n p) PO _ _ _ _ _ E) as (H1 & H2 & H3 & H4 & H5 & H6 & H7).
      assert (InPQ : forall x, In x (p :: Pr ++ st) <-> In x (Pr ++ p :: Q) \/ (In x (discs ev) /\ pp x = true)).
      { intros x. rewrite H2. cbn [In]. rewrite !in_app_iff, filter_In. cbn [In]. tauto. }
      constructor; rewrite ?discs_app.
      - intros x Ix. apply InPQ in Ix. destruct Ix as [Ix|[Ix Px]]; [apply (i_expl _ _ _ _ I); exact Ix|].
        apply H4 in Ix. destruct Ix as [_ (a & Ia & ->)]. apply In_syms_of in Ia. apply expl_S; assumption.
      - intros x. rewrite color_of_dset, in_app_iff. cbn [In]. destruct (eqb_spec x p) as [->|Nx].
        + split; [auto|discriminate].
        + destruct (in_dec' x (discs ev)) as [D|D].
          * rewrite (H6 x D). split; [auto|discriminate].
          * rewrite (H7 x D), (i_col _ _ _ _ I). intuition congruence.
      - apply NoDup_app_intro; [apply I|exact H3|]. intros x D1 D2. apply H4 in D2. destruct D2 as [D2 _].
        assert (X : color_of col x <> WHITE) by (apply (i_col _ _ _ _ I); right; exact D1). contradiction.
      - intros x Ix. apply in_app_iff in Ix. destruct Ix as [Ix|Ix].
        + destruct (i_disc _ _ _ _ I x Ix) as (q & a & Iq & L & ->). exists q, a. split; [right; exact Iq|auto].
        + apply H4 in Ix. destruct Ix as [_ (a & Ia & ->)]. apply In_syms_of in Ia. exists p, a. split; [left; reflexivity|auto].
      - intros x Ix Px. apply InPQ. apply in_app_iff in Ix. destruct Ix as [Ix|Ix]; [|right; auto].
        left. apply (i_push _ _ _ _ I); assumption.
      - intros x a Ix L. rewrite !in_app_iff. destruct Ix as [<-|Ix].
        + assert (Ia : In a (syms_of n p)) by (apply In_syms_of; exact L). split; [right; apply H1; auto|].
          destruct (H5 a Ia) as [X|X]; [left; right; exact X|]. apply (i_col _ _ _ _ I) in X. cbn [In]. tauto.
        + destruct (i_next _ _ _ _ I x a Ix L) as [X Y]. cbn [In]. tauto.
      - intros x Ix. apply InPQ in Ix. rewrite in_app_iff. destruct Ix as [Ix|[Ix _]]; [|right; right; exact Ix].
        destruct (i_src _ _ _ _ I x Ix); auto.
      - intros x a Ix. apply in_app_iff in Ix. cbn [In]. destruct Ix as [Ix|Ix].
        + apply (i_edge _ _ _ _ I) in Ix. tauto.
        + apply H1 in Ix. destruct Ix as [-> Ix]. apply In_syms_of in Ix. auto.
      - apply InPQ. left. exact (i_p0 _ _ _ _ I).
    Qed.

    Variable U : list qpair.
    Hypothesis U_nd : NoDup U.
    Hypothesis U_succ : forall p a, In (succ p a) U.
    Definition whites (col : dict qpair color) : nat := length (filter (fun p => is_white (color_of col p)) U).

    Lemma tloop_total fuel : forall n Pr Q col evs, Inv Pr Q col evs -> length Q + whites col < fuel ->
      exists ev Pr' col', tloop fuel n Q col = Some ev /\ Inv Pr' [] col' (evs ++ ev).
    Proof.
      induction fuel as [|fuel IH]; intros n Pr Q col evs I L; [lia|]. cbn [tloop]. destruct Q as [|p Q].
      - exists [], Pr, col. rewrite app_nil_r. auto.
      - destruct (tsym p (syms_of n p) Q col) as [[ev st] c] eqn:E.
        pose proof (Inv_step _ _ _ _ _ _ _ _ _ I E) as I'.
        destruct (IH (S n) (p :: Pr) st (dset c p BLACK) (evs ++ ev) I') as (ev2 & Pr' & col' & E2 & I2).
        + assert (PO : forall a, In a (syms_of n p) -> ip (get_edge g1 (fst p) a) (get_edge g2 (snd p) a) = pp (succ p a)).
          { intros a Ia. apply In_syms_of in Ia. apply push_ok; [|exact Ia].
            apply (i_expl _ _ _ _ I); apply in_app_iff; right; left; reflexivity. }
          destruct (tsym_spec p (syms_of n p) PO _ _ _ _ _ E) as (H1 & H2 & H3 & H4 & H5 & H6 & H7).
          assert (W : whites (dset c p BLACK) + length (discs ev) <= whites col).
          { apply filter_split_count; [exact H3|exact U_nd| |].
            - intros x Ix. apply H4 in Ix. destruct Ix as [C (a & _ & ->)]. split; [apply U_succ|apply is_white_spec; exact C].
            - intros x _ Wx. apply is_white_spec in Wx. rewrite color_of_dset in Wx. destruct (eqb x p); [discriminate|].
              assert (N : ~ In x (discs ev)) by (intros X; rewrite (H6 x X) in Wx; discriminate).
              split; [|exact N]. rewrite (H7 x N) in Wx. apply is_white_spec. exact Wx. }
          assert (Ls : length st <= length Q + length (discs ev)).
          { rewrite H2, app_length. pose proof (filter_length_le pp (fun _ => true) (discs ev)) as F.
            assert (X : filter (fun _ : qpair => true) (discs ev) = discs ev) by (clear; induction (discs ev) as [|x l IHl]; cbn; [|rewrite IHl]; reflexivity).
            rewrite X in F. specialize (F (fun _ _ _ => eq_refl)). lia. }
          cbn [length] in L. lia.
        + exists (ev ++ ev2), Pr', col'. rewrite E2, app_assoc. auto.
    Qed.

    Lemma Inv_init : Inv [] [p0] [] [].
    Proof.
      constructor; cbn [app discs flat_map In].
      - intros p [<-|[]]. constructor.
      - intros p. unfold color_of. cbn. tauto.
      - constructor.
      - intros p [].
      - intros p [].
      - intros p a [].
      - intros p [<-|[]]. auto.
      - intros p a [].
      - auto.
    Qed.

    Lemma Inv_final Pr col evs : Inv Pr [] col evs ->
      NoDup (discs evs) /\
      (forall p a, In (EvEdge p a) evs <-> expl p /\ live (succ p a)) /\
      (forall p, In p (discs evs) -> exists q a, expl q /\ live (succ q a) /\ p = succ q a) /\
      (forall q a, expl q -> live (succ q a) -> In (succ q a) (discs evs) \/ succ q a = p0).
    Proof.
      intros I. destruct I as [I1 I2 I3 I4 I5 I6 I7 I8 I9].
      assert (X : forall p, expl p -> In p Pr).
      { intros p E. induction E as [|p a E IH L P]; [rewrite app_nil_r in I9; exact I9|].
        destruct (I6 p a IH L) as [_ [D|D]]; [|exact D]. specialize (I5 _ D P). rewrite app_nil_r in I5. exact I5. }
      assert (Y : forall p, In p Pr -> expl p) by (intros p Ip; apply I1; rewrite app_nil_r; exact Ip).
      split; [exact I3|]. split; [|split].
      - intros p a. split; [intros E; apply I8 in E; split; [apply Y|]; tauto|]. intros [E L]. apply I6; auto.
      - intros p D. apply I4 in D. destruct D as (q & a & Iq & L & ->). exists q, a. auto.
      - intros q a E L. destruct (I6 q a (X _ E) L) as [_ [D|D]]; [auto|].
        destruct (I7 (succ q a)) as [Z|Z]; [rewrite app_nil_r; exact D|right; exact Z|left; exact Z].
    Qed.

    Lemma trace_spec fuel n : length U + 1 < fuel -> exists ev, tloop fuel n [p0] [] = Some ev /\
      NoDup (discs ev) /\
      (forall p a, In (EvEdge p a) ev <-> expl p /\ live (succ p a)) /\
      (forall p, In p (discs ev) -> exists q a, expl q /\ live (succ q a) /\ p = succ q a) /\
      (forall q a, expl q -> live (succ q a) -> In (succ q a) (discs ev) \/ succ q a = p0).
    Proof.
      intros L. destruct (tloop_total fuel n [] [p0] [] [] Inv_init) as (ev & Pr & col & E & I).
      - assert (whites [] <= length U) by (unfold whites; clear; induction U as [|x l IHl]; cbn in *; lia); cbn [length]; lia.
      - exists ev. split; [exact E|]. apply (Inv_final _ _ _ I).
    Qed.
  End Trace.

  (** ** A finite universe for the pairs *)
  Definition otargets (g : aut A) : list (option nat) := None :: map Some (sof (map target (A_edges g))).
  Lemma In_otargets g q a : In (odelta g q a) (otargets g).
  Proof.
    destruct q as [q|]; cbn; [|auto]. destruct (A_delta g q a) as [r|] eqn:E; [|auto]. right.
    apply in_map. apply In_sof. apply in_map_iff. exists (Edge q r a). split; [reflexivity|].
    unfold A_delta in E. destruct (dget (au_adj g) q) as [d|] eqn:Ed; [|discriminate].
    apply dget_In in E, Ed. unfold A_edges. apply in_flat_map. exists (q, d). split; [exact Ed|].
    apply in_map_iff. exists (a, r). auto.
  Qed.
  Lemma NoDup_otargets g : NoDup (otargets g).
  Proof.
    constructor.
    - rewrite in_map_iff. intros (x & E & _). discriminate.
    - apply NoDup_map_inj_in; [apply NoDup_sof|]. congruence.
  Qed.
  Lemma length_sof_le {X} `{EqDec X} (l : list X) : length (sof l) <= length l.
  Proof. apply NoDup_incl_length; [apply NoDup_sof|]. intros x I. apply (proj1 (In_sof x l)) in I. exact I. Qed.
  Lemma length_otargets g : length (otargets g) <= A_num_edges g + 1.
  Proof.
    cbn. rewrite map_length. pose proof (length_sof_le (map target (A_edges g))) as L. rewrite map_length in L.
    unfold A_num_edges. lia.
  Qed.

  (** enough steps for the parallel BFS *)
  Definition pbfs_fuel (g1 g2 : aut A) : nat := (A_num_edges g1 + 1) * (A_num_edges g2 + 1) + 2.

  Theorem pbfs_events g1 g2 ord ip pp : valid_order ord ->
    let p0 := (A_initial g1, A_initial g2) in
    (forall p a, expl g1 g2 pp p0 p -> live (succ g1 g2 p a) ->
      ip (get_edge g1 (fst p) a) (get_edge g2 (snd p) a) = pp (succ g1 g2 p a)) ->
    forall fuel, pbfs_fuel g1 g2 <= fuel -> exists ev,
    (forall St hs he hd (s : St), pbfs (fun _ => g1) g2 ord hs he hd ip fuel s =
       Some (match hs s (A_initial g1) (A_initial g2) with
             | (s', Ok _) => foreach (handle g1 g2 he hd) s' ev | r => r end)) /\
    NoDup (discs ev) /\
    (forall p a, In (EvEdge p a) ev <-> expl g1 g2 pp p0 p /\ live (succ g1 g2 p a)) /\
    (forall p, In p (discs ev) -> exists q a, expl g1 g2 pp p0 q /\ live (succ g1 g2 q a) /\ p = succ g1 g2 q a) /\
    (forall q a, expl g1 g2 pp p0 q -> live (succ g1 g2 q a) -> In (succ g1 g2 q a) (discs ev) \/ succ g1 g2 q a = p0).
  Proof.
    intros OV p0 PO fuel L.
    set (U := list_prod (otargets g1) (otargets g2)).
    assert (LU : length U + 1 < fuel).
    { unfold U. rewrite prod_length. unfold pbfs_fuel in L. pose proof (length_otargets g1). pose proof (length_otargets g2).
      assert (length (otargets g1) * length (otargets g2) <= (A_num_edges g1 + 1) * (A_num_edges g2 + 1)) by (apply Nat.mul_le_mono; assumption). lia. }
    assert (NU : NoDup U).
    { unfold U. clear. pose proof (NoDup_otargets g1) as N1. pose proof (NoDup_otargets g2) as N2.
      revert N1 N2. generalize (otargets g1) (otargets g2). intros l1 l2 N1 N2.
      induction N1 as [|x l NI N1 IH]; cbn; [constructor|]. apply NoDup_app_intro; [|exact IH|].
      - apply NoDup_map_inj_in; [exact N2|]. congruence.
      - intros [y z] I1 I2. apply in_map_iff in I1. destruct I1 as (w & E & _). injection E as <- <-.
        apply in_prod_iff in I2. tauto. }
    assert (SU : forall p a, In (succ g1 g2 p a) U).
    { intros p a. unfold U, succ. apply in_prod; apply In_otargets. }
    destruct (trace_spec g1 g2 ord ip pp p0 PO OV U NU SU fuel 0 LU) as (ev & E & H). exists ev. split; [|exact H].
    intros St hs he hd s. unfold pbfs. destruct (hs s (A_initial g1) (A_initial g2)) as [s' [u|e]]; [|reflexivity].
    apply sim_loop. exact E.
  Qed.
End P.
