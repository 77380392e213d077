(** Lemmas on breadth_first_search: the sequence of calls does not depend on the visitor; invariant on the queue. *)
From Coq Require Import Sorted.
From Verif Require Import Base BaseProofs Search SearchSpec SearchProofs SearchProofs2.

Section B.
  Context {E : Type}.
  Variables (out_edges : nat -> list E) (target source : E -> nat) (if_push : E -> bool).
  Notation next := (next out_edges target if_push).

  (** the calls of the loop on the out-edges, and its effect *)
  Fixpoint bedges (l : list E) (q : list nat) (c : colors) : list (event E) * list nat * colors :=
    match l with
    | [] => ([], q, c)
    | e :: l' =>
        if if_push e then
          let v := target e in
          match color_of c v with
          | WHITE => let '(t, q', c') := bedges l' (q ++ [v]) (dset (snd (color_read c v)) v GRAY) in ([Ask e; Examine e; Tree e; Discover v] ++ t, q', c')
          | GRAY => let '(t, q', c') := bedges l' q (snd (color_read c v)) in ([Ask e; Examine e; NonTree e; GrayTarget e] ++ t, q', c')
          | BLACK => let '(t, q', c') := bedges l' q (snd (color_read c v)) in ([Ask e; Examine e; NonTree e; BlackTarget e] ++ t, q', c')
          end
        else let '(t, q', c') := bedges l' q c in (Ask e :: t, q', c')
    end.
  Lemma color_read_fst c v : fst (color_read c v) = color_of c v.
  Proof. unfold color_read, color_of. destruct (dget c v); reflexivity. Qed.
  Lemma color_read_snd c v x : color_of (snd (color_read c v)) x = color_of c x.
  Proof.
    unfold color_read, color_of. destruct (dget c v) eqn:D; [reflexivity|]. cbn [snd]. rewrite dget_dset. destruct (eqb_spec x v) as [->|]; [rewrite D; reflexivity|reflexivity].
  Qed.

  Section V.
    Context {St : Type}.
    Variable vis : event E -> St -> res St.
    Lemma bedges_calls l : forall q c st, bfs_edges target if_push vis l q c st =
      let '(t, q', c') := bedges l q c in match calls vis t st with Ok st' => Ok (q', c', st') | Raise x => Raise x end.
    Proof.
      induction l as [|e l IH]; intros q c st; [reflexivity|]. cbn [bfs_edges bedges]. destruct (vis (Ask e) st) as [st1|x] eqn:V; cbn [rbind].
      - destruct (if_push e); cbn [negb].
        + pose proof (color_read_fst c (target e)) as F. destruct (color_read c (target e)) as [cv c1]. cbn [fst snd] in F |- *. subst cv.
          destruct (color_of c (target e)); match goal with |- context [bedges l ?q ?c] => specialize (IH q c); destruct (bedges l q c) as [[t q'] c'] end;
            cbn [calls app]; rewrite V; cbn [rbind]; repeat (match goal with |- context [rbind (vis ?x ?y) _] => destruct (vis x y); cbn [rbind]; [|reflexivity] end); apply IH.
        + specialize (IH q c st1). destruct (bedges l q c) as [[t q'] c']. cbn [calls]. rewrite V. exact IH.
      - destruct (if_push e); [|destruct (bedges l q c) as [[t q'] c']; cbn [calls]; rewrite V; reflexivity].
        destruct (color_of c (target e)); match goal with |- context [bedges l ?q ?c] => destruct (bedges l q c) as [[t q'] c'] end; cbn [calls app]; rewrite V; reflexivity.
    Qed.
  End V.

  Inductive brun : list nat -> colors -> list (event E) -> colors -> Prop :=
  | brun_nil c : brun [] c [] c
  | brun_cons u q c te q1 c1 t c' : bedges (out_edges u) q c = (te, q1, c1) -> brun q1 (dset c1 u BLACK) t c' ->
      brun (u :: q) c (ExamineVertex u :: te ++ Finish u :: t) c'.

  Lemma brun_calls {St} (vis : event E -> St -> res St) q c t c' : brun q c t c' -> exists k, forall st fuel, k <= fuel ->
    bfs_loop out_edges target if_push vis fuel q c st = Some (match calls vis t st with Ok st' => Ok (c', st') | Raise x => Raise x end).
  Proof.
    induction 1 as [c|u q c te q1 c1 t c' B R (k & IH)].
    - exists 0. intros st [|fuel] _; reflexivity.
    - exists (S k). intros st [|fuel] L; [lia|]. cbn [bfs_loop]. cbn [calls]. destruct (vis (ExamineVertex u) st) as [st1|x]; cbn [rbind]; [|reflexivity].
      rewrite bedges_calls, B. rewrite calls_app. destruct (calls vis te st1) as [st2|x]; cbn [rbind]; [|reflexivity]. cbn [calls].
      destruct (vis (Finish u) st2) as [st3|x]; cbn [rbind]; [|reflexivity]. apply IH. lia.
  Qed.

  Record efacts (l : list E) (q : list nat) (c : colors) (te : list (event E)) (q1 : list nat) (c1 : colors) : Prop := {
    e_queue : q1 = q ++ discovered te;
    e_tree : map target (tree_edges te) = discovered te;
    e_nodup : NoDup (discovered te);
    e_white : forall v, In v (discovered te) -> color_of c v = WHITE /\ color_of c1 v = GRAY;
    e_other : forall v, ~ In v (discovered te) -> color_of c1 v = color_of c v;
    e_all : forall e, In e l -> if_push e = true -> color_of c1 (target e) <> WHITE;
    e_exam : examined te = filter if_push l;
    e_sub : incl (tree_edges te) (examined te);
    e_fin : finished te = [];
    e_ask : asked te = l }.
  Lemma bedges_facts l : forall q c te q1 c1, bedges l q c = (te, q1, c1) -> efacts l q c te q1 c1.
  Proof.
    induction l as [|e l IH]; intros q c te q1 c1 B; cbn [bedges] in B.
    - injection B as <- <- <-. constructor; cbn; [rewrite app_nil_r; reflexivity|reflexivity|constructor|intros v []|reflexivity|intros v []|reflexivity|intros v []|reflexivity|reflexivity].
    - destruct (if_push e) eqn:P.
      + destruct (color_of c (target e)) eqn:CV.
        * destruct (bedges l (q ++ [target e]) _) as [[t q'] c'] eqn:B'. injection B as <- <- <-.
          destruct (IH _ _ _ _ _ B') as [I1 I2 I3 I4 I5 I6 I7 I8 I9 I10].
          assert (C' : forall v, color_of (dset (snd (color_read c (target e))) (target e) GRAY) v = if eqb v (target e) then GRAY else color_of c v).
          { intros v. unfold color_of at 1. rewrite dget_dset. destruct (eqb_spec v (target e)); [reflexivity|]. apply color_read_snd. }
          assert (N : ~ In (target e) (discovered t)) by (intros X; apply I4 in X; destruct X as [X _]; rewrite C', eqb_refl in X; discriminate).
          constructor; cbn [app].
          -- change (discovered (Ask e :: Examine e :: Tree e :: Discover (target e) :: t)) with (target e :: discovered t). rewrite I1, <- app_assoc. reflexivity.
          -- cbn. f_equal. exact I2.
          -- cbn. constructor; [exact N|exact I3].
          -- intros v [<-|X]; [split; [exact CV|]; rewrite (I5 _ N), C', eqb_refl; reflexivity|]. destruct (I4 v X) as [Y Z]. split; [|exact Z]. rewrite C' in Y. destruct (eqb_spec v (target e)); [discriminate|exact Y].
          -- intros v X. cbn in X. rewrite I5 by tauto. rewrite C'. destruct (eqb_spec v (target e)) as [->|]; [tauto|reflexivity].
          -- intros x [<-|X] Y; [rewrite (I5 _ N), C', eqb_refl; discriminate|apply (I6 x X Y)].
          -- cbn. rewrite P. f_equal. exact I7.
          -- intros x [<-|X]; [left; reflexivity|right; apply I8, X].
          -- exact I9.
          -- cbn. f_equal. exact I10.
        * destruct (bedges l q _) as [[t q'] c'] eqn:B'. injection B as <- <- <-. destruct (IH _ _ _ _ _ B') as [I1 I2 I3 I4 I5 I6 I7 I8 I9 I10].
          constructor; cbn [app].
          -- exact I1.
          -- exact I2.
          -- exact I3.
          -- intros v X. destruct (I4 v X) as [Y Z]. rewrite color_read_snd in Y. auto.
          -- intros v X. rewrite (I5 v X). apply color_read_snd.
          -- intros x [<-|X] Y; [|apply (I6 x X Y)]. destruct (in_dec' (target e) (discovered t)) as [D|D]; [destruct (I4 _ D) as [_ Z]; rewrite Z; discriminate|]. rewrite (I5 _ D), color_read_snd, CV. discriminate.
          -- cbn. rewrite P. f_equal. exact I7.
          -- intros x X. right. apply I8, X.
          -- exact I9.
          -- cbn. f_equal. exact I10.
        * destruct (bedges l q _) as [[t q'] c'] eqn:B'. injection B as <- <- <-. destruct (IH _ _ _ _ _ B') as [I1 I2 I3 I4 I5 I6 I7 I8 I9 I10].
          constructor; cbn [app].
          -- exact I1.
          -- exact I2.
          -- exact I3.
          -- intros v X. destruct (I4 v X) as [Y Z]. rewrite color_read_snd in Y. auto.
          -- intros v X. rewrite (I5 v X). apply color_read_snd.
          -- intros x [<-|X] Y; [|apply (I6 x X Y)]. destruct (in_dec' (target e) (discovered t)) as [D|D]; [destruct (I4 _ D) as [_ Z]; rewrite Z; discriminate|]. rewrite (I5 _ D), color_read_snd, CV. discriminate.
          -- cbn. rewrite P. f_equal. exact I7.
          -- intros x X. right. apply I8, X.
          -- exact I9.
          -- cbn. f_equal. exact I10.
      + destruct (bedges l q c) as [[t q'] c'] eqn:B'. injection B as <- <- <-. destruct (IH _ _ _ _ _ B') as [I1 I2 I3 I4 I5 I6 I7 I8 I9 I10].
        constructor; try assumption.
        * intros x [<-|X] Y; [congruence|apply (I6 x X Y)].
        * cbn. rewrite P. exact I7.
        * cbn. f_equal. exact I10.
  Qed.

  (** termination *)
  Definition whites (V : list nat) (c : colors) : nat := length (filter (fun v => eqb (color_of c v) WHITE) V).
  Lemma whites_mark V c v : NoDup V -> In v V -> color_of c v = WHITE -> S (whites V (dset c v GRAY)) = whites V c.
  Proof.
    intros N I W. unfold whites. assert (C : forall x, color_of (dset c v GRAY) x = if eqb x v then GRAY else color_of c x) by (intros x; unfold color_of at 1; rewrite dget_dset; destruct (eqb_spec x v); reflexivity).
    induction V as [|x V IH]; [destruct I|]. inversion N as [|? ? N1 N2]; subst. cbn [filter]. rewrite C. destruct (eqb_spec x v) as [->|Nx].
    - rewrite W. cbn. f_equal. f_equal. apply filter_ext_in. intros y Iy. rewrite C. destruct (eqb_spec y v) as [->|]; [contradiction|reflexivity].
    - destruct I as [I|I]; [congruence|]. destruct (eqb (color_of c x) WHITE); cbn [length]; rewrite <- (IH N2 I); reflexivity.
  Qed.
  Lemma whites_ext V c c' : (forall v, color_of c v = color_of c' v) -> whites V c = whites V c'.
  Proof. intros H. unfold whites. f_equal. apply filter_ext. intros x. rewrite H. reflexivity. Qed.
  Lemma bedges_measure V l : NoDup V -> (forall e, In e l -> if_push e = true -> In (target e) V) -> forall q c te q1 c1, bedges l q c = (te, q1, c1) ->
    length q1 + whites V c1 = length q + whites V c.
  Proof.
    intros NV. induction l as [|e l IH]; intros HI q c te q1 c1 B; cbn [bedges] in B; [injection B as <- <- <-; reflexivity|].
    assert (HI' : forall e, In e l -> if_push e = true -> In (target e) V) by (intros; apply HI; [right; assumption|assumption]). specialize (IH HI').
    assert (WR : forall v, whites V (snd (color_read c v)) = whites V c) by (intros v; apply whites_ext, color_read_snd).
    destruct (if_push e) eqn:P; [destruct (color_of c (target e)) eqn:CV|].
    - destruct (bedges l (q ++ [target e]) _) as [[t q'] c'] eqn:B'. injection B as <- <- <-. apply IH in B'. rewrite B', app_length. cbn [length].
      rewrite <- (WR (target e)). rewrite <- (whites_mark V (snd (color_read c (target e))) (target e) NV); [lia|apply HI; [left; reflexivity|exact P]|rewrite color_read_snd; exact CV].
    - destruct (bedges l q _) as [[t q'] c'] eqn:B'. injection B as <- <- <-. apply IH in B'. rewrite B', WR. reflexivity.
    - destruct (bedges l q _) as [[t q'] c'] eqn:B'. injection B as <- <- <-. apply IH in B'. rewrite B', WR. reflexivity.
    - destruct (bedges l q c) as [[t q'] c'] eqn:B'. injection B as <- <- <-. apply (IH _ _ _ _ _ B').
  Qed.
  Lemma whites_black V c u : whites V (dset c u BLACK) <= whites V c.
  Proof.
    unfold whites. induction V as [|x V IH]; [apply le_n|]. cbn [filter]. assert (C : color_of (dset c u BLACK) x = if eqb x u then BLACK else color_of c x) by (unfold color_of at 1; rewrite dget_dset; destruct (eqb_spec x u); reflexivity).
    rewrite C. destruct (eqb_spec x u); [destruct (eqb_spec BLACK WHITE) as [X|_]; [discriminate X|]; destruct (eqb (color_of c x) WHITE); cbn [length]; lia|].
    destruct (eqb (color_of c x) WHITE); cbn [length]; lia.
  Qed.
  Lemma brun_exists V : NoDup V -> closed_set out_edges target if_push V -> forall n q c, incl q V -> length q + whites V c <= n -> exists t c', brun q c t c'.
  Proof.
    intros NV CV. induction n as [|n IH]; intros q c I L.
    - destruct q as [|u q]; [exists [], c; constructor|cbn in L; lia].
    - destruct q as [|u q]; [exists [], c; constructor|]. destruct (bedges (out_edges u) q c) as [[te q1] c1] eqn:B.
      assert (HI : forall e, In e (out_edges u) -> if_push e = true -> In (target e) V) by (intros e Ie P; apply (CV u); [apply I; left; reflexivity|exists e; auto]).
      pose proof (bedges_measure V (out_edges u) NV HI _ _ _ _ _ B) as M. pose proof (bedges_facts _ _ _ _ _ _ B) as F.
      destruct (IH q1 (dset c1 u BLACK)) as (t & c' & R).
      + rewrite (e_queue _ _ _ _ _ _ F). intros x X. apply in_app_or in X. destruct X as [X|X]; [apply I; right; exact X|]. rewrite <- (e_tree _ _ _ _ _ _ F) in X. apply in_map_iff in X.
        destruct X as (e & <- & X). apply (e_sub _ _ _ _ _ _ F) in X. rewrite (e_exam _ _ _ _ _ _ F) in X. apply filter_In in X. apply HI; apply X.
      + pose proof (whites_black V c1 u). cbn [length] in L. lia.
      + exists (ExamineVertex u :: te ++ Finish u :: t), c'. econstructor; eassumption.
  Qed.

  (** The invariant: P the vertices taken out of the queue, Q the queue, dp the distances. *)
  Variables (sources : list nat) (c0 : colors).
  Definition from_source (n : nat) (v : nat) : Prop := exists s, In s sources /\ walk next n s v.
  Record binv (P Q : list nat) (c : colors) (dp : nat -> nat) : Prop := {
    b_nodup : NoDup (P ++ Q);
    b_walk : forall v, In v (P ++ Q) -> from_source (dp v) v;
    b_black : forall v, In v P -> color_of c v = BLACK;
    b_gray : forall v, In v Q -> color_of c v = GRAY;
    b_other : forall v, ~ In v (P ++ Q) -> color_of c v = color_of c0 v;
    b_source : forall s, In s sources -> In s (P ++ Q) /\ dp s = 0;
    b_closed : forall u v, In u P -> next u v -> In v (P ++ Q) /\ dp v <= S (dp u);
    b_sorted : StronglySorted le (map dp (P ++ Q));
    b_near : forall u Q', Q = u :: Q' -> forall v, In v (P ++ Q) -> dp v <= S (dp u) }.

  Hypothesis WH : forall v n, from_source n v -> color_of c0 v = WHITE.
  Lemma walk_snoc {X} (R : X -> X -> Prop) n x y z : walk R n x y -> R y z -> walk R (S n) x z.
  Proof. induction 1 as [x|n x x1 y H W IH]; intros N; [econstructor; [exact N|constructor]|econstructor; [exact H|apply IH, N]]. Qed.
  Lemma sorted_app (l l' : list nat) : StronglySorted le l -> StronglySorted le l' -> (forall x y, In x l -> In y l' -> x <= y) -> StronglySorted le (l ++ l').
  Proof.
    intros S S' H. induction S as [|x l S IH F]; [exact S'|]. cbn. constructor; [apply IH; intros; apply H; [right|]; assumption|].
    apply Forall_app. split; [exact F|]. apply Forall_forall. intros y I. apply H; [left; reflexivity|exact I].
  Qed.
  Lemma sorted_const (l : list nat) n : (forall x, In x l -> x = n) -> StronglySorted le l.
  Proof.
    induction l as [|x l IH]; intros H; constructor; [apply IH; intros; apply H; right; assumption|]. apply Forall_forall. intros y I. rewrite (H x), (H y); [lia|right; exact I|left; reflexivity].
  Qed.
  Lemma sorted_le (l l' : list nat) x y : StronglySorted le (l ++ x :: l') -> In y l' -> x <= y.
  Proof.
    induction l as [|z l IH]; cbn; intros S I; inversion S as [|? ? S1 F]; subst; [|apply IH; assumption]. apply (proj1 (Forall_forall _ _) F), I.
  Qed.

  Lemma brun_inv Q c t c' : brun Q c t c' -> forall P dp, binv P Q c dp -> exists dp',
    binv (P ++ Q ++ discovered t) [] c' dp' /\ (forall v, In v (P ++ Q) -> dp' v = dp v) /\
    finished t = Q ++ discovered t /\ discovered t = map target (tree_edges t) /\
    examined t = flat_map (u_edges out_edges if_push) (Q ++ discovered t) /\
    incl (tree_edges t) (examined t) /\
    ((forall u e, In e (out_edges u) -> source e = u) -> forall e, In e (tree_edges t) -> dp' (target e) = S (dp' (source e))).
  Proof.
    induction 1 as [c|u Q c te Q1 c1 t c' B R IH]; intros P dp I.
    - exists dp. split; [|split; [reflexivity|split; [reflexivity|split; [reflexivity|split; [reflexivity|split; [apply incl_refl|intros _ e []]]]]]].
      destruct I as [I1 I2 I3 I4 I5 I6 I7 I8 I9]. cbn [discovered flat_map]. rewrite app_nil_r in *. constructor; rewrite ?app_nil_r in *; auto.
    - destruct (bedges_facts _ _ _ _ _ _ B) as [F1 F2 F3 F4 F5 F6 F7 F8 F9 F10]. destruct I as [I1 I2 I3 I4 I5 I6 I7 I8 I9].
      set (N := discovered te) in *.
      assert (PQ : forall v, In v (P ++ u :: Q) -> ~ In v N).
      { intros v X Y. destruct (F4 v Y) as [Z _]. apply in_app_or in X. destruct X as [X|X]; [rewrite (I3 v X) in Z|rewrite (I4 v X) in Z]; discriminate. }
      set (dp1 := fun v => if mem v N then S (dp u) else dp v).
      assert (D1 : forall v, In v (P ++ u :: Q) -> dp1 v = dp v) by (intros v X; unfold dp1; destruct (mem_reflect v N) as [Y|Y]; [destruct (PQ v X Y)|reflexivity]).
      assert (D2 : forall v, In v N -> dp1 v = S (dp u)) by (intros v X; unfold dp1; destruct (mem_reflect v N) as [Y|Y]; [reflexivity|contradiction]).
      assert (Iu : In u (P ++ u :: Q)) by (apply in_or_app; right; left; reflexivity).
      assert (EQ : (P ++ [u]) ++ Q1 = (P ++ u :: Q) ++ N) by (rewrite F1, <- !app_assoc; reflexivity).
      assert (NN : forall v, In v N -> next u v).
      { intros v X. rewrite <- F2 in X. apply in_map_iff in X. destruct X as (e & <- & X). apply F8 in X. rewrite F7 in X. apply filter_In in X. exists e. tauto. }
      assert (NU : NoDup ((P ++ u :: Q) ++ N)).
      { apply NoDup_app_intro; [exact I1|exact F3|exact PQ]. }
      assert (CB : forall v, color_of (dset c1 u BLACK) v = if eqb v u then BLACK else color_of c1 v) by (intros v; unfold color_of at 1; rewrite dget_dset; destruct (eqb_spec v u); reflexivity).
      assert (J : binv (P ++ [u]) Q1 (dset c1 u BLACK) dp1).
      { constructor; rewrite ?EQ.
        - exact NU.
        - intros v X. apply in_app_or in X. destruct X as [X|X]; [rewrite (D1 v X); apply I2, X|]. rewrite (D2 v X). destruct (I2 u Iu) as (s & Is & W). exists s. split; [exact Is|]. eapply walk_snoc; [exact W|apply NN, X].
        - intros v X. rewrite CB. destruct (eqb_spec v u) as [|Nv]; [reflexivity|]. apply in_app_or in X. destruct X as [X|[X|[]]]; [|congruence]. rewrite F5; [apply I3, X|]. apply PQ, in_or_app. left. exact X.
        - intros v X. rewrite CB. destruct (eqb_spec v u) as [->|Nv].
          + exfalso. rewrite <- EQ in NU. rewrite <- app_assoc in NU. apply NoDup_remove_2 in NU. apply NU. apply in_or_app. right. exact X.
          + rewrite F1 in X. apply in_app_or in X. destruct X as [X|X]; [|apply F4, X]. rewrite F5; [apply I4; right; exact X|]. apply PQ, in_or_app. right. right. exact X.
        - intros v X. rewrite CB. destruct (eqb_spec v u) as [->|Nv]; [exfalso; apply X, in_or_app; left; exact Iu|]. rewrite F5; [apply I5; intros Y|intros Y]; apply X, in_or_app; [left|right]; exact Y.
        - intros s X. destruct (I6 s X) as [Y Z]. split; [apply in_or_app; left; exact Y|]. rewrite (D1 s Y). exact Z.
        - intros x v X Nx. apply in_app_or in X. destruct X as [X|[<-|[]]].
          + destruct (I7 x v X Nx) as [Y Z]. split; [apply in_or_app; left; exact Y|]. rewrite (D1 v Y), (D1 x); [exact Z|]. apply in_or_app. left. exact X.
          + assert (Y : In v ((P ++ u :: Q) ++ N)).
            { destruct (in_dec' v ((P ++ u :: Q) ++ N)) as [Y|Y]; [exact Y|]. exfalso. destruct Nx as (e & Ie & Pe & <-). apply (F6 e Ie Pe).
              rewrite F5 by (intros Z; apply Y, in_or_app; right; exact Z). rewrite I5 by (intros Z; apply Y, in_or_app; left; exact Z).
              destruct (I2 u Iu) as (s & Is & W). apply (WH _ (S (dp u))). exists s. split; [exact Is|]. eapply walk_snoc; [exact W|]. exists e. auto. }
            split; [exact Y|]. rewrite (D1 u Iu). apply in_app_or in Y. destruct Y as [Y|Y]; [rewrite (D1 v Y); apply (I9 u Q eq_refl v Y)|rewrite (D2 v Y); lia].
        - rewrite map_app. apply sorted_app.
          + replace (map dp1 (P ++ u :: Q)) with (map dp (P ++ u :: Q)); [exact I8|]. apply map_ext_in. intros v X. symmetry. apply D1, X.
          + apply (sorted_const _ (S (dp u))). intros x X. apply in_map_iff in X. destruct X as (v & <- & X). apply D2, X.
          + intros x y X Y. apply in_map_iff in X, Y. destruct X as (v & <- & X), Y as (w & <- & Y). rewrite (D1 v X), (D2 w Y). apply (I9 u Q eq_refl v X).
        - intros u' Q' Eq v X. assert (L : dp u <= dp1 u').
          { rewrite F1 in Eq. destruct Q as [|x Q]; cbn in Eq.
            - rewrite D2; [lia|]. rewrite Eq. left. reflexivity.
            - injection Eq as <- _. assert (Z : In x (P ++ u :: x :: Q)) by (apply in_or_app; right; right; left; reflexivity). rewrite (D1 x Z).
              rewrite map_app in I8. apply (sorted_le _ _ _ (dp x) I8). left. reflexivity. }
          apply in_app_or in X. destruct X as [X|X]; [rewrite (D1 v X); pose proof (I9 u Q eq_refl v X); lia|rewrite (D2 v X); lia]. }
      destruct (IH _ _ J) as (dp' & H1 & H2 & H3 & H4 & H5 & H6 & H7). exists dp'.
      assert (DD : discovered (ExamineVertex u :: te ++ Finish u :: t) = N ++ discovered t).
      { change (ExamineVertex u :: te ++ Finish u :: t) with ([ExamineVertex u] ++ te ++ [Finish u] ++ t). rewrite !disc_app. reflexivity. }
      assert (DE : examined (ExamineVertex u :: te ++ Finish u :: t) = examined te ++ examined t).
      { change (ExamineVertex u :: te ++ Finish u :: t) with ([ExamineVertex u] ++ te ++ [Finish u] ++ t). rewrite !exam_app. reflexivity. }
      assert (DT : tree_edges (ExamineVertex u :: te ++ Finish u :: t) = tree_edges te ++ tree_edges t).
      { change (ExamineVertex u :: te ++ Finish u :: t) with ([ExamineVertex u] ++ te ++ [Finish u] ++ t). unfold tree_edges. rewrite !flat_map_app. reflexivity. }
      assert (DF : finished (ExamineVertex u :: te ++ Finish u :: t) = finished te ++ u :: finished t).
      { change (ExamineVertex u :: te ++ Finish u :: t) with ([ExamineVertex u] ++ te ++ [Finish u] ++ t). unfold finished. rewrite !flat_map_app. reflexivity. }
      rewrite DD, DE, DT, DF, F9.
      split; [|split; [|split; [|split; [|split; [|split]]]]].
      + replace (P ++ (u :: Q) ++ N ++ discovered t) with ((P ++ [u]) ++ Q1 ++ discovered t); [exact H1|]. rewrite F1, <- !app_assoc. reflexivity.
      + intros v X. rewrite H2; [apply D1, X|]. rewrite EQ. apply in_or_app. left. exact X.
      + cbn [app]. rewrite H3, F1, <- app_assoc. reflexivity.
      + rewrite map_app, F2, <- H4. reflexivity.
      + cbn [app flat_map]. rewrite H5, F1, F7, <- app_assoc. reflexivity.
      + apply incl_app; [apply incl_appl, F8|apply incl_appr, H6].
      + intros SRC e X. apply in_app_or in X. destruct X as [X|X]; [|apply (H7 SRC), X].
        pose proof (F8 e X) as Y. rewrite F7 in Y. apply filter_In in Y. rewrite (SRC u e (proj1 Y)).
        assert (Z : In (target e) N) by (rewrite <- F2; apply in_map, X).
        rewrite !H2 by (rewrite EQ; apply in_or_app; auto). rewrite (D2 _ Z), (D1 _ Iu). reflexivity.
  Qed.
End B.
