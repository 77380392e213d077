(** Lemmas on shunting_yard_ast. *)
From Verif Require Import Graph ShuntingYard SYSpec SYProofs Ast AstSpec Base BaseProofs.
#[local] Arguments dkeys : simpl never.

Scheme is_tree_mut := Induction for is_tree Sort Prop with are_trees_mut := Induction for are_trees Sort Prop.

Section Proofs.
  Context {T : Type} `{EqDec T}.
  Implicit Types t : ast T.

  Lemma are_trees_ext t t' us ns l : are_trees t us ns l ->
    (forall u, In u l -> dget (ast_label t') u = dget (ast_label t) u /\ G_out_edges (ast_graph t') u = G_out_edges (ast_graph t) u) ->
    are_trees t' us ns l.
  Proof.
    intros X.
    refine (are_trees_mut T t
      (fun u n l _ => (forall u, In u l -> dget (ast_label t') u = dget (ast_label t) u /\ G_out_edges (ast_graph t') u = G_out_edges (ast_graph t) u) -> is_tree t' u n l)
      (fun us n l _ => (forall u, In u l -> dget (ast_label t') u = dget (ast_label t) u /\ G_out_edges (ast_graph t') u = G_out_edges (ast_graph t) u) -> are_trees t' us n l)
      _ _ _ us ns l X).
    - intros u a ns' us' E _ IH HE. destruct (HE u) as (E1 & E2); [apply in_app_iff; right; left; reflexivity|]. constructor; [congruence|]. rewrite E2. apply IH.
      intros u' I. apply HE, in_app_iff. left. exact I.
    - constructor.
    - intros u us' n ns' l1 l2 _ IH1 _ IH2 HE. constructor; [apply IH1|apply IH2]; intros u' I; apply HE, in_app_iff; auto.
  Qed.

  Lemma are_trees_app t us1 us2 ns1 ns2 l1 l2 : are_trees t us1 ns1 l1 -> are_trees t us2 ns2 l2 -> are_trees t (us1 ++ us2) (ns1 ++ ns2) (l1 ++ l2).
  Proof. intros X Y. induction X as [|u us' n ns l3 l4 X1 X2 IH]; cbn; [exact Y|]. rewrite <- app_assoc. constructor; assumption. Qed.
  Lemma are_trees_split t us1 us2 ns1 ns2 l : length us1 = length ns1 -> are_trees t (us1 ++ us2) (ns1 ++ ns2) l ->
    exists l1 l2, l = l1 ++ l2 /\ are_trees t us1 ns1 l1 /\ are_trees t us2 ns2 l2.
  Proof.
    revert ns1 l. induction us1 as [|u us1 IH]; intros ns1 l EL X; destruct ns1 as [|n ns1]; try discriminate; cbn in *.
    - exists [], l. split; [reflexivity|]. split; [constructor|exact X].
    - inversion X as [|u' us' n' ns' l1 l2 X1 X2]; subst. destruct (IH ns1 l2) as (l3 & l4 & -> & Y1 & Y2); [lia|exact X2|].
      exists (l1 ++ l3), l4. split; [apply app_assoc|]. split; [constructor; assumption|exact Y2].
  Qed.
  Lemma are_trees_length t us ns l : are_trees t us ns l -> length us = length ns.
  Proof. intros X. induction X; cbn; auto. Qed.
  Lemma is_tree_root t u n l : is_tree t u n l -> In u l.
  Proof. intros X. inversion X; subst. apply in_app_iff. right. left. reflexivity. Qed.
  Lemma are_trees_roots t us ns l : are_trees t us ns l -> incl us l.
  Proof.
    intros X. induction X as [|u us' n ns l3 l4 X1 X2 IH]; intros x; [intros []|]. intros [<-|I]; apply in_app_iff; [left; eapply is_tree_root; exact X1|right; apply IH, I].
  Qed.
  Lemma are_trees_NoDup t us ns l : are_trees t us ns l -> NoDup l -> NoDup us.
  Proof.
    intros X. induction X as [|u us' n ns l3 l4 X1 X2 IH]; intros ND; [constructor|]. apply NoDup_app_inv in ND. destruct ND as (N1 & N2 & N3).
    constructor; [|apply IH, N2]. intros I. apply (N3 u); [eapply is_tree_root; exact X1|eapply are_trees_roots; [exact X2|exact I]].
  Qed.

  (** The tree with [n] vertices: its vertices are 0..n-1. *)
  Definition good t n : Prop := last_vertex_id (ast_graph t) = n /\ dkeys (adjacencies (ast_graph t)) = seq 0 n.

  Lemma good_none t n u : good t n -> n <= u -> dget (adjacencies (ast_graph t)) u = None.
  Proof. intros (_ & E) L. apply dget_None. rewrite E, in_seq. lia. Qed.

  Lemma add_vertex_good t n a : good t n -> exists t', Ast_add_vertex t a = (t', Ok n) /\ good t' (S n) /\
    dget (adjacencies (ast_graph t')) n = Some [] /\ dget (ast_label t') n = Some a /\
    (forall u, u < n -> dget (ast_label t') u = dget (ast_label t) u /\ G_out_edges (ast_graph t') u = G_out_edges (ast_graph t) u).
  Proof.
    intros G. pose proof G as (E1 & E2). unfold Ast_add_vertex, G_add_vertex. rewrite E1. eexists. split; [reflexivity|]. cbn. split; [|split; [|split]].
    - split; cbn; [reflexivity|]. rewrite dkeys_dset_new by (rewrite E2, in_seq; lia). rewrite E2. change (seq 0 (S n)) with (0 :: seq 1 n). rewrite <- seq_S. reflexivity.
    - apply dget_dset_same.
    - apply dget_dset_same.
    - intros u L. unfold G_out_edges. cbn. rewrite !dget_dset_other by lia. auto.
  Qed.

  Lemma dset_snoc (vs : list nat) v : ~ In v vs -> dset (map (fun v => (v, [0])) vs) v [0] = map (fun v => (v, [0])) (vs ++ [v]).
  Proof.
    induction vs as [|x vs IH]; intros N; cbn; [reflexivity|]. destruct (eqb_spec v x) as [->|Nx]; [destruct N; left; reflexivity|].
    rewrite IH by (intros I; apply N; right; exact I). reflexivity.
  Qed.
  Lemma add_edges_good u vs : forall t n done, good t n -> u < n -> NoDup (done ++ vs) ->
    dget (adjacencies (ast_graph t)) u = Some (map (fun v => (v, [0])) done) ->
    exists t', foreach (fun t v => Ast_add_edge t u v) t vs = (t', Ok tt) /\ good t' n /\ ast_label t' = ast_label t /\
      dget (adjacencies (ast_graph t')) u = Some (map (fun v => (v, [0])) (done ++ vs)) /\
      (forall u', u' <> u -> G_out_edges (ast_graph t') u' = G_out_edges (ast_graph t) u').
  Proof.
    induction vs as [|v vs IH]; intros t n done G L ND E; cbn [foreach].
    - exists t. rewrite app_nil_r. auto.
    - unfold Ast_add_edge at 1, G_add_edge. rewrite E.
      assert (Nv : ~ In v done) by (intros I; apply NoDup_app_inv in ND; apply (proj2 (proj2 ND) v I); left; reflexivity).
      assert (EN : dget (map (fun v => (v, [0])) done) v = None) by (apply dget_None; unfold dkeys; rewrite map_map; cbn; rewrite map_id; exact Nv).
      rewrite EN. cbn. rewrite (dset_snoc done v Nv).
      set (t1 := mkAst _ _ _). destruct (IH t1 n (done ++ [v])) as (t' & R & G' & EL & EA & EO).
      + destruct G as (G1 & G2). split; cbn; [exact G1|]. rewrite dkeys_dset_old; [exact G2|]. eapply dget_Some_key. exact E.
      + exact L.
      + rewrite <- app_assoc. exact ND.
      + apply dget_dset_same.
      + exists t'. split; [exact R|]. split; [exact G'|]. split; [exact EL|]. split; [rewrite <- app_assoc in EA; exact EA|].
        intros u' N. rewrite EO by exact N. unfold G_out_edges. cbn. rewrite dget_dset_other by exact N. reflexivity.
  Qed.

  Variables lpar rpar : T.
  Variable ops : dict T Op.

  (** the same on trees: a stack of syntax trees, its top first *)
  Definition build_step (F : list (node T)) (a : T) : res (list (node T)) :=
    match dget ops a with
    | None => Ok (Node a [] :: F)
    | Some op => if cardinality op <=? length F then Ok (Node a (rev (firstn (cardinality op) F)) :: skipn (cardinality op) F) else Raise IndexError
    end.

  Lemma pops_spec {V} card (dq vs : list V) :
    pops card dq vs = if card <=? length dq then Ok (rev (firstn card dq) ++ vs, skipn card dq) else Raise IndexError.
  Proof.
    revert dq vs. induction card as [|card IH]; intros dq vs; cbn; [reflexivity|]. destruct dq as [|v dq]; cbn; [reflexivity|]. rewrite IH.
    destruct (card <=? length dq); [|reflexivity]. rewrite <- app_assoc. reflexivity.
  Qed.

  (** the graph and the deque stand for the stack of trees *)
  Definition stands t (dq : list nat) (F : list (node T)) : Prop := exists n, good t n /\ ast_root t = None /\ are_trees t (rev dq) (rev F) (seq 0 n).

  Lemma foreach_root u vs : forall t, ast_root (fst (foreach (fun t v => Ast_add_edge t u v) t vs)) = ast_root t.
  Proof.
    induction vs as [|v vs IH]; intros t; cbn; [reflexivity|]. unfold Ast_add_edge at 1. destruct (G_add_edge _ u v) as [g [x|e]]; [|reflexivity]. rewrite IH. reflexivity.
  Qed.

  Lemma push_stands t dq F a : stands t dq F ->
    match build_step F a with
    | Ok F' => exists t' dq', push_ast ops (t, dq) a = Ok (t', dq') /\ stands t' dq' F'
    | Raise e => push_ast ops (t, dq) a = Raise e
    end.
  Proof.
    intros (n & G & ER & TR). unfold push_ast, build_step. destruct (add_vertex_good t n a G) as (t1 & E1 & G1 & A1 & L1 & X1). rewrite E1.
    assert (ER1 : ast_root t1 = None) by (unfold Ast_add_vertex, G_add_vertex in E1; injection E1 as <- _; exact ER).
    assert (TR1 : are_trees t1 (rev dq) (rev F) (seq 0 n)) by (eapply are_trees_ext; [exact TR|]; intros u I; apply X1; apply in_seq in I; lia).
    pose proof (are_trees_length _ _ _ _ TR) as EL. rewrite !rev_length in EL.
    destruct (dget ops a) as [op|] eqn:Eop.
    - rewrite pops_spec, EL. destruct (cardinality op <=? length F) eqn:EC; [|reflexivity]. cbn [rbind]. rewrite app_nil_r. apply Nat.leb_le in EC.
      set (k := cardinality op) in *.
      rewrite <- (firstn_skipn k dq), <- (firstn_skipn k F), !rev_app_distr in TR1.
      apply are_trees_split in TR1; [|rewrite !rev_length, !skipn_length; lia]. destruct TR1 as (l1 & l2 & El & T1 & T2).
      assert (ND : NoDup (rev (firstn k dq))) by (eapply are_trees_NoDup; [exact T2|]; pose proof (seq_NoDup n 0) as N; rewrite El in N; apply NoDup_app_inv in N; apply N).
      destruct (add_edges_good n (rev (firstn k dq)) t1 (S n) [] G1 (Nat.lt_succ_diag_r n) ND A1) as (t2 & E2 & G2 & L2 & A2 & X2).
      pose proof (foreach_root n (rev (firstn k dq)) t1) as ER2. rewrite E2 in ER2. cbn in ER2. rewrite E2. exists t2, (n :: skipn k dq). split; [reflexivity|].
      exists (S n). split; [exact G2|]. split; [congruence|]. cbn [rev].
      assert (EX : forall u, In u (l1 ++ l2) -> dget (ast_label t2) u = dget (ast_label t1) u /\ G_out_edges (ast_graph t2) u = G_out_edges (ast_graph t1) u).
      { intros u I. rewrite <- El in I. apply in_seq in I. split; [rewrite L2; reflexivity|]. apply X2. lia. }
      rewrite seq_S, El, <- app_assoc. cbn [Nat.add]. apply are_trees_app.
      + eapply are_trees_ext; [exact T1|]. intros u I. apply EX, in_app_iff. auto.
      + rewrite <- (app_nil_r (l2 ++ [n])). constructor; [|constructor]. constructor; [rewrite L2; exact L1|].
        unfold G_out_edges. rewrite A2. cbn [app].
        assert (EO : map target (star n (map (fun v => (v, [0])) (rev (firstn k dq)))) = rev (firstn k dq)).
        { clear. generalize (rev (firstn k dq)) as l. induction l as [|v l IH]; cbn; [reflexivity|]. f_equal. exact IH. }
        rewrite EO. eapply are_trees_ext; [exact T2|]. intros u I. apply EX, in_app_iff. auto.
    - exists t1, (n :: dq). split; [reflexivity|]. exists (S n). split; [exact G1|]. split; [exact ER1|]. cbn [rev]. rewrite seq_S. apply are_trees_app; [exact TR1|]. change (are_trees t1 [0 + n] [Node a []] ([0 + n] ++ [])).
      constructor; [|constructor]. change [0 + n] with ([] ++ [0 + n]). constructor; [exact L1|]. unfold G_out_edges. cbn. rewrite A1. constructor.
  Qed.

  Fixpoint builds (F : list (node T)) (l : list T) : res (list (node T)) :=
    match l with [] => Ok F | a :: l' => rbind (build_step F a) (fun F => builds F l') end.
  Lemma builds_app F l1 l2 : builds F (l1 ++ l2) = rbind (builds F l1) (fun F => builds F l2).
  Proof. revert F. induction l1 as [|a l1 IH]; intros F; cbn; [reflexivity|]. destruct (build_step F a); cbn; [apply IH|reflexivity]. Qed.

  Lemma pushes_stands l : forall t dq F, stands t dq F ->
    match builds F l with
    | Ok F' => exists t' dq', pushes (push_ast ops) (t, dq) l = Ok (t', dq') /\ stands t' dq' F'
    | Raise e => pushes (push_ast ops) (t, dq) l = Raise e
    end.
  Proof.
    induction l as [|a l IH]; intros t dq F S; cbn [pushes builds]; [exists t, dq; auto|].
    pose proof (push_stands t dq F a S) as X. destruct (build_step F a) as [F'|e]; cbn [rbind]; [|rewrite X; reflexivity].
    destruct X as (t' & dq' & -> & S'). cbn [rbind]. apply IH, S'.
  Qed.
  Lemma stands_init : stands Ast_init [] [].
  Proof. exists 0. split; [split; reflexivity|]. split; [reflexivity|]. cbn. constructor. Qed.

  Lemma builds_syntax x : fits lpar rpar ops x -> arities ops x -> forall F, builds F (postfix x) = Ok (syntax x :: F).
  Proof.
    induction x as [a|x IH a|l IHl o r IHr|x IH o|o x IH|x IH]; cbn [fits arities postfix syntax].
    - intros (_ & _ & N) _ F. cbn. unfold build_step. rewrite (proj2 (dget_None _ _) N). reflexivity.
    - intros _ [].
    - intros (F1 & _ & F2 & _) ((p & E & C) & A1 & A2) F. rewrite !builds_app, (IHl F1 A1). cbn [rbind]. rewrite builds_app, (IHr F2 A2). cbn [rbind builds]. unfold build_step. rewrite E, C. reflexivity.
    - intros (F1 & _) ((p & E & C) & A1) F. rewrite !builds_app, (IH F1 A1). cbn [rbind builds]. unfold build_step. rewrite E, C. reflexivity.
    - intros (_ & F1 & _) ((p & E & C) & A1) F. rewrite !builds_app, (IH F1 A1). cbn [rbind builds]. unfold build_step. rewrite E, C. reflexivity.
    - intros F1 A1. apply IH; assumption.
  Qed.

  (** any sequence of tokens: what the default output would be is the post-order of the trees *)
  Lemma builds_post l : forall F F', builds F l = Ok F' -> flat_map post_order (rev F') = flat_map post_order (rev F) ++ l.
  Proof.
    induction l as [|a l IH]; intros F F'; cbn [builds].
    - intros X. injection X as <-. rewrite app_nil_r. reflexivity.
    - unfold build_step. destruct (dget ops a) as [op|].
      + destruct (cardinality op <=? length F); cbn [rbind]; [|discriminate]. intros X. apply IH in X. rewrite X. cbn [rev]. rewrite flat_map_app. cbn [flat_map post_order]. rewrite app_nil_r.
        rewrite <- (firstn_skipn (cardinality op) F) at 3. rewrite rev_app_distr, flat_map_app, <- !app_assoc. reflexivity.
      + cbn [rbind]. intros X. apply IH in X. rewrite X. cbn [rev]. rewrite flat_map_app, <- app_assoc. reflexivity.
  Qed.

  Lemma builds_ranked_list l : (forall x, In x l -> forall F, builds F (post_order x) = Ok (x :: F)) ->
    forall F, builds F (flat_map post_order l) = Ok (rev l ++ F).
  Proof.
    induction l as [|x l IH]; intros HL F; cbn [flat_map rev]; [reflexivity|]. rewrite builds_app, (HL x (or_introl eq_refl)). cbn [rbind].
    rewrite IH by (intros y I; apply HL; right; exact I). rewrite <- app_assoc. reflexivity.
  Qed.
  Lemma builds_ranked n : ranked ops n -> forall F, builds F (post_order n) = Ok (n :: F).
  Proof.
    revert n. fix IH 2. intros n [a l E R] F. cbn [post_order]. rewrite builds_app, (builds_ranked_list l); [|intros x I; apply IH, R, I]. cbn [rbind builds]. unfold build_step.
    destruct (dget ops a) as [p|]; [|subst l; reflexivity]. rewrite <- E, app_length, rev_length.
    rewrite (proj2 (Nat.leb_le _ _)) by lia. cbn [rbind]. rewrite firstn_app, skipn_app, rev_length, Nat.sub_diag. cbn [firstn skipn]. rewrite app_nil_r.
    rewrite firstn_all2, skipn_all2 by (rewrite rev_length; lia). rewrite rev_involutive. reflexivity.
  Qed.
  Lemma builds_are_ranked l : forall F F', (forall x, In x F -> ranked ops x) -> builds F l = Ok F' -> forall x, In x F' -> ranked ops x.
  Proof.
    induction l as [|a l IH]; intros F F' R; cbn [builds].
    - intros X. injection X as <-. exact R.
    - unfold build_step. destruct (dget ops a) as [p|] eqn:E.
      + destruct (cardinality p <=? length F) eqn:EC; cbn [rbind]; [|discriminate]. apply Nat.leb_le in EC. apply IH. intros x [<-|I].
        * constructor; [rewrite E, rev_length, firstn_length; lia|]. intros x I. apply R. apply in_rev in I. rewrite <- (firstn_skipn (cardinality p) F). apply in_app_iff. auto.
        * apply R. rewrite <- (firstn_skipn (cardinality p) F). apply in_app_iff. auto.
      + cbn [rbind]. apply IH. intros x [<-|I]; [|apply R, I]. constructor; [rewrite E; reflexivity|intros x []].
  Qed.

  (** what any sink receives is what the deque receives *)
  Section Sink.
    Context {O : Type}.
    Variable push : O -> T -> res O.
    Lemma close_sink st : forall l st' l' o, close_loop lpar push_deque st l = Ok (st', l') ->
      exists m, l' = l ++ m /\ close_loop lpar push st o = rbind (pushes push o m) (fun o => Ok (st', o)).
    Proof.
      induction st as [|x st IH]; intros l st' l' o; cbn; [discriminate|]. destruct (eqb x lpar).
      - intros X. injection X as <- <-. exists []. rewrite app_nil_r. auto.
      - intros X. unfold push_deque in X. cbn [rbind] in X. destruct (push o x) as [o'|e] eqn:E.
        + destruct (IH _ _ _ o' X) as (m & -> & Y). exists (x :: m). rewrite <- app_assoc. split; [reflexivity|]. cbn. rewrite E. exact Y.
        + destruct (IH _ _ _ o X) as (m & -> & _). exists (x :: m). rewrite <- app_assoc. split; [reflexivity|]. cbn. rewrite E. reflexivity.
    Qed.
    Lemma pop_sink op st : forall l st' l' o, pop_loop ops push_deque op st l = Ok (st', l') ->
      exists m, l' = l ++ m /\ pop_loop ops push op st o = rbind (pushes push o m) (fun o => Ok (st', o)).
    Proof.
      induction st as [|x st IH]; intros l st' l' o; cbn [pop_loop].
      - intros X. injection X as <- <-. exists []. rewrite app_nil_r. auto.
      - destruct (preceeds ops x op).
        + intros X. unfold push_deque in X. cbn [rbind] in X. destruct (push o x) as [o'|e] eqn:E.
          * destruct (IH _ _ _ o' X) as (m & -> & Y). exists (x :: m). rewrite <- app_assoc. split; [reflexivity|]. cbn. rewrite E. exact Y.
          * destruct (IH _ _ _ o X) as (m & -> & _). exists (x :: m). rewrite <- app_assoc. split; [reflexivity|]. cbn. rewrite E. reflexivity.
        + intros X. injection X as <- <-. exists []. rewrite app_nil_r. auto.
    Qed.
    Lemma step_sink st l a st' l' o : token_step lpar rpar ops push_deque (st, l) a = Ok (st', l') ->
      exists m, l' = l ++ m /\ token_step lpar rpar ops push (st, o) a = rbind (pushes push o m) (fun o => Ok (st', o)).
    Proof.
      unfold token_step. destruct (eqb a lpar).
      - intros X. injection X as <- <-. exists []. rewrite app_nil_r. auto.
      - destruct (eqb a rpar); [apply close_sink|]. destruct (dget ops a) as [op|].
        + destruct (pop_loop ops push_deque op st l) as [[st1 l1]|e] eqn:E; cbn [rbind]; [|discriminate]. intros X. injection X as <- <-.
          destruct (pop_sink _ _ _ _ _ o E) as (m & -> & Y). exists m. split; [reflexivity|]. rewrite Y, rbind_assoc. reflexivity.
        + unfold push_deque. cbn [rbind]. intros X. injection X as <- <-. exists [a]. split; [reflexivity|]. cbn [pushes]. rewrite rbind_assoc. reflexivity.
    Qed.
    Lemma tokens_sink expr : forall st l st' l' o, tokens_loop lpar rpar ops push_deque (st, l) expr = Ok (st', l') ->
      exists m, l' = l ++ m /\ tokens_loop lpar rpar ops push (st, o) expr = rbind (pushes push o m) (fun o => Ok (st', o)).
    Proof.
      induction expr as [|a expr IH]; intros st l st' l' o; cbn [tokens_loop].
      - intros X. injection X as <- <-. exists []. rewrite app_nil_r. auto.
      - destruct (token_step lpar rpar ops push_deque (st, l) a) as [[st1 l1]|e] eqn:E; cbn [rbind]; [|discriminate]. intros X.
        destruct (step_sink _ _ _ _ _ o E) as (m & -> & Y). rewrite Y, rbind_assoc.
        destruct (pushes push o m) as [o1|e] eqn:EP; cbn [rbind].
        + destruct (IH _ _ _ _ o1 X) as (m2 & -> & Z). exists (m ++ m2). split; [rewrite app_assoc; reflexivity|]. rewrite Z, pushes_app, EP. reflexivity.
        + destruct (IH _ _ _ _ o X) as (m2 & -> & _). exists (m ++ m2). split; [rewrite app_assoc; reflexivity|]. rewrite pushes_app, EP. reflexivity.
    Qed.
    Lemma pushes_deque m l : pushes (T := T) push_deque l m = Ok (l ++ m).
    Proof. revert l. induction m as [|a m IH]; intros l; cbn; [rewrite app_nil_r; reflexivity|]. rewrite IH, <- app_assoc. reflexivity. Qed.
    Lemma postfix_sink expr l o : shunting_yard_postfix lpar rpar ops push_deque expr [] = Ok l ->
      shunting_yard_postfix lpar rpar ops push expr o = pushes push o l.
    Proof.
      unfold shunting_yard_postfix. destruct (tokens_loop lpar rpar ops push_deque ([], []) expr) as [[st l1]|e] eqn:E; cbn [rbind]; [|discriminate].
      rewrite (flush_pushes push_deque), pushes_deque. intros X. injection X as <-. destruct (tokens_sink _ _ _ _ _ o E) as (m & -> & Y). cbn [app] in *. rewrite Y, rbind_assoc, pushes_app. apply rbind_ext. intros o1. cbn [rbind]. apply flush_pushes.
    Qed.
  End Sink.
End Proofs.
