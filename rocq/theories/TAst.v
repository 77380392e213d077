(** Theorems on the abstract syntax trees: C73, C74. *)
From Coq Require Import String.
From Verif Require Import Graph ShuntingYard SYSpec SYProofs Ast AstSpec AstProofs Str Base BaseProofs.
Open Scope string_scope.
Open Scope nat_scope.
Open Scope list_scope.
#[local] Arguments dkeys : simpl never.

Lemma good_vertices {T} (t : ast T) n : good t n -> G_vertices (ast_graph t) = seq 0 n.
Proof. intros (_ & E). exact E. Qed.

(** ** C73 *)
(** The infix form of an expression that fits the table yields its syntax tree: from the returned root, the graph is that
    tree, and it has no other vertex; the vertices are distinct, children before their parent. *)
Theorem C73_ast {T} `{EqDec T} (lpar rpar : T) ops x : lpar <> rpar -> ~ In lpar (dkeys ops) ->
  fits lpar rpar ops x -> arities ops x ->
  exists t root, shunting_yard_ast lpar rpar ops (infix lpar rpar x) = Ok (t, root) /\
    NoDup (G_vertices (ast_graph t)) /\ is_tree t root (syntax x) (G_vertices (ast_graph t)).
Proof.
  intros N NL F A. unfold shunting_yard_ast. rewrite (shunting_yard_tree lpar rpar ops NL (push_ast ops) x _ N F).
  pose proof (pushes_stands ops (postfix x) _ _ _ stands_init) as P. rewrite (builds_syntax lpar rpar ops x F A) in P.
  destruct P as (t & dq & -> & n & G & _ & TR). cbn [rbind rev app] in *. pose proof (are_trees_length _ _ _ _ TR) as L. rewrite rev_length in L. destruct dq as [|root [|]]; try discriminate.
  exists t, root. split; [reflexivity|]. rewrite (good_vertices t n G). split; [apply seq_NoDup|].
  cbn [rev app] in TR. inversion TR as [|u us' m ms l1 l2 T1 T2 E1 E2 E3]; subst. inversion T2; subst. rewrite app_nil_r. exact T1.
Qed.
Print Assumptions C73_ast.

(** For any list of tokens, [l] being what shunting_yard_postfix outputs: shunting_yard_ast returns the tree of which [l]
    is the postfix form, and raises when there is none. *)
Theorem C73_any_tokens {T} `{EqDec T} (lpar rpar : T) ops expression l :
  shunting_yard_postfix lpar rpar ops push_deque expression [] = Ok l ->
  match shunting_yard_ast lpar rpar ops expression with
  | Ok (t, root) => exists n, ranked ops n /\ post_order n = l /\
      NoDup (G_vertices (ast_graph t)) /\ is_tree t root n (G_vertices (ast_graph t))
  | Raise _ => ~ exists n, ranked ops n /\ post_order n = l
  end.
Proof.
  intros E. unfold shunting_yard_ast. rewrite (postfix_sink lpar rpar ops (push_ast ops) expression l _ E).
  pose proof (pushes_stands ops l _ _ _ stands_init) as P. destruct (builds ops [] l) as [F|e] eqn:EB.
  - destruct P as (t & dq & -> & n & G & _ & TR). cbn [rbind]. pose proof (are_trees_length _ _ _ _ TR) as L. rewrite !rev_length in L.
    destruct dq as [|root [|r2 dq]].
    + destruct F; [|discriminate]. intros (m & R & <-). rewrite (builds_ranked ops m R) in EB. discriminate.
    + destruct F as [|m [|]]; try discriminate. exists m. split; [eapply builds_are_ranked; [|exact EB|left; reflexivity]; intros y []|].
      split; [apply builds_post in EB; cbn in EB; rewrite app_nil_r in EB; exact EB|].
      rewrite (good_vertices t n G). split; [apply seq_NoDup|]. cbn [rev app] in TR. inversion TR as [|u us' m' ms l1 l2 T1 T2 E1 E2 E3]; subst. inversion T2; subst. rewrite app_nil_r. exact T1.
    + destruct F as [|m [|m2 F]]; try discriminate. intros (m' & R & <-). rewrite (builds_ranked ops m' R) in EB. discriminate.
  - rewrite P. cbn [rbind]. intros (m & R & <-). rewrite (builds_ranked ops m R) in EB. discriminate.
Qed.
Print Assumptions C73_any_tokens.

Definition ops73 : dict str Op := [(lit "+", mkOp 2 2 true); (lit "*", mkOp 2 3 true); (lit "!", mkOp 1 4 true)].
(** a + b * (c + d)! *)
Definition x73 : tree (T := str) :=
  Bin (Leaf (lit "a")) (lit "+") (Bin (Leaf (lit "b")) (lit "*") (Post (Par (Bin (Leaf (lit "c")) (lit "+") (Leaf (lit "d")))) (lit "!"))).
Example x73_fits : fits (lit "(") (lit ")") ops73 x73 /\ arities ops73 x73.
Proof.
  split; [|cbn; repeat split; eexists; split; reflexivity]. cbn [fits x73]. unfold operator, operand.
  repeat match goal with
  | |- _ /\ _ => split
  | |- _ <> _ => discriminate
  | |- ~ In _ _ => let X := fresh in intros X; cbv in X; intuition discriminate
  | |- In _ _ => cbv; tauto
  | |- forall _, In _ _ -> _ => let o := fresh "o" in let X := fresh "X" in intros o X; cbn in X; repeat (destruct X as [<-|X]); try destruct X
  | |- binds_left _ _ _ => eexists; eexists; split; [reflexivity|split; [reflexivity|cbn; lia]]
  | |- ~ binds_left _ _ _ => intros (p1 & p2 & E1 & E2 & X); vm_compute in E1, E2; injection E1 as <-; injection E2 as <-; cbn in X; lia
  end.
Qed.
Definition t73 : ast str := mkAst
  (mkGraph 8 [(0, []); (1, []); (2, []); (3, []); (4, [(2, [0]); (3, [0])]); (5, [(4, [0])]); (6, [(1, [0]); (5, [0])]); (7, [(0, [0]); (6, [0])])])
  [(0, lit "a"); (1, lit "b"); (2, lit "c"); (3, lit "d"); (4, lit "+"); (5, lit "!"); (6, lit "*"); (7, lit "+")] None.
Example x73_run : shunting_yard_ast (lit "(") (lit ")") ops73 (infix (lit "(") (lit ")") x73) = Ok (t73, 7).
Proof. vm_compute. reflexivity. Qed.
(** a + (missing operand) raises, and its output a + is the postfix form of no tree *)
Example x73_missing : shunting_yard_ast (lit "(") (lit ")") ops73 [lit "a"; lit "+"] = Raise IndexError /\
  shunting_yard_postfix (lit "(") (lit ")") ops73 push_deque [lit "a"; lit "+"] [] = Ok [lit "a"; lit "+"].
Proof. split; vm_compute; reflexivity. Qed.

(** ** C74 *)
(** to_expr fails on every tree built by shunting_yard_ast: the attribute root is None. Storing the root in it does not
    help, unless the root is the vertex 0. *)
Theorem C74_to_expr_never (ops : dict str Op) lpar rpar expression t root fuel :
  shunting_yard_ast lpar rpar ops expression = Ok (t, root) ->
  to_expr fuel t = Raise KeyError /\
  (root <> 0 -> to_expr fuel (mkAst (ast_graph t) (ast_label t) (Some root)) = Raise RuntimeError).
Proof.
  intros E. split; [|destruct root; [congruence|reflexivity]]. unfold shunting_yard_ast in E.
  destruct (shunting_yard_postfix lpar rpar ops (push_ast ops) expression (Ast_init, [])) as [[t1 ret]|] eqn:E1; [|discriminate]. cbn [rbind] in E.
  destruct ret as [|r [|]]; try discriminate. injection E as <- <-.
  assert (R : forall o l s', pushes (push_ast ops) o l = Ok s' -> ast_root (fst o) = None -> ast_root (fst s') = None).
  { intros o l. revert o. induction l as [|a l IH]; intros [t0 dq] s'; cbn [pushes]; [intros X; injection X as <-; auto|].
    destruct (push_ast ops (t0, dq) a) as [[t' dq']|] eqn:EP; [|discriminate]. cbn [rbind]. intros X R0. apply (IH _ _ X). cbn in *.
    unfold push_ast, Ast_add_vertex, G_add_vertex in EP. destruct (dget ops a) as [op|]; [|injection EP as <- <-; exact R0].
    destruct (pops (cardinality op) dq []) as [[vs dq1]|]; [|discriminate]. cbn [rbind] in EP.
    match type of EP with context [foreach ?f ?x ?l] => pose proof (foreach_root (last_vertex_id (ast_graph t0)) vs x) as FR; destruct (foreach f x l) as [t2 [y|]]; [|discriminate] end.
    injection EP as <- _. cbn in FR. congruence. }
  destruct (shunting_yard_postfix lpar rpar ops push_deque expression []) as [l|e] eqn:E2.
  - rewrite (postfix_sink lpar rpar ops (push_ast ops) expression l _ E2) in E1. apply R in E1; [|reflexivity]. cbn in E1. unfold to_expr. rewrite E1. reflexivity.
  - exfalso. assert (Tk : forall expr st (o : ast str * list nat) st' o', tokens_loop lpar rpar ops (push_ast ops) (st, o) expr = Ok (st', o') ->
      forall d, exists d', tokens_loop lpar rpar ops push_deque (st, d) expr = Ok (st', d')).
    { clear. induction expr as [|a expr IH]; intros st o st' o'; cbn [tokens_loop].
      - intros X d. injection X as <- <-. eauto.
      - destruct (token_step lpar rpar ops (push_ast ops) (st, o) a) as [[st1 o1]|] eqn:ES; [|discriminate]. cbn [rbind]. intros X d.
        assert (exists d1, token_step lpar rpar ops push_deque (st, d) a = Ok (st1, d1)) as (d1 & ->).
        { revert ES. unfold token_step. destruct (eqb a lpar); [intros Y; injection Y as <- <-; eauto|]. destruct (eqb a rpar).
          - clear X. revert o d. induction st as [|y st IHs]; intros o d; cbn; [discriminate|]. destruct (eqb y lpar); [intros Y; injection Y as <- <-; eauto|].
            destruct (push_ast ops o y) as [o2|]; [|discriminate]. cbn [rbind push_deque]. intros Y. exact (IHs _ _ Y).
          - destruct (dget ops a) as [op|].
            + clear X. intros Y. assert (exists d1 st2, pop_loop ops push_deque op st d = Ok (st2, d1) /\ st1 = a :: st2) as (d1 & st2 & -> & ->); [|cbn; eauto].
              revert o d Y. induction st as [|y st IHs]; intros o d; cbn [pop_loop rbind]; [intros Y; injection Y as <- <-; eauto|].
              destruct (preceeds ops y op); [|cbn [rbind]; intros Y; injection Y as <- <-; eauto].
              destruct (push_ast ops o y) as [o2|]; [|discriminate]. cbn [rbind push_deque]. intros Y. exact (IHs _ _ Y).
            + destruct (push_ast ops o a) as [o2|]; [|discriminate]. cbn. intros Y. injection Y as <- <-. eauto. }
        cbn [rbind]. exact (IH _ _ _ _ X d1). }
    unfold shunting_yard_postfix in *. destruct (tokens_loop lpar rpar ops (push_ast ops) ([], (Ast_init, [])) expression) as [[st o]|] eqn:ET; [|discriminate].
    destruct (Tk _ _ _ _ _ ET []) as (d & ED). rewrite ED in E2. cbn [rbind] in E2. rewrite flush_pushes, pushes_deque in E2. discriminate.
Qed.
Print Assumptions C74_to_expr_never.

(** a + b: to_expr fails, with the root of the tree or without it *)
Theorem C74_to_expr_refuted : exists t root, shunting_yard_ast (lit "(") (lit ")") ops73 [lit "a"; lit "+"; lit "b"] = Ok (t, root) /\
  to_expr 10 t = Raise KeyError /\ to_expr 10 (mkAst (ast_graph t) (ast_label t) (Some root)) = Raise RuntimeError.
Proof. eexists. eexists. split; [vm_compute; reflexivity|]. split; vm_compute; reflexivity. Qed.
Print Assumptions C74_to_expr_refuted.

(** fully parenthesized expression of a binary tree *)
Fixpoint with_pars (n : node str) : tree (T := str) :=
  match n with
  | Node a [x; y] => Par (Bin (with_pars x) a (with_pars y))
  | Node a _ => Leaf a
  end.

Lemma to_expr_rec_binary t : forall n u us, is_tree t u n us -> binary n -> forall fuel, size n <= fuel ->
  to_expr_rec fuel t u = Ok (concat (infix (lit "(") (lit ")") (with_pars n))).
Proof.
  intros n u us TR B. revert u us TR. induction B as [a|a x y Bx IHx By IHy]; intros u us TR fuel L; destruct fuel as [|fuel]; try (cbn in L; lia); cbn [to_expr_rec];
    inversion TR as [u' a' l us1 EL ET]; subst; unfold Ast_symbol; rewrite EL; cbn [rbind]; unfold G_out_degree, Ast_children.
  - inversion ET as [E|]; subst. rewrite <- (map_length target), <- E. cbn. rewrite app_nil_r. reflexivity.
  - inversion ET as [|v1 vs n1 ns1 l1 l2 T1 T2 E]; subst. inversion T2 as [|v2 vs2 n2 ns2 l3 l4 T3 T4 E']; subst. inversion T4; subst.
    rewrite <- (map_length target), <- E. cbn [length mapM]. cbn [size fold_right] in L. rewrite (IHx _ _ T1), (IHy _ _ T3) by lia. cbn [rbind join with_pars infix concat].
    rewrite concat_app. cbn [concat app]. rewrite app_nil_r, concat_app. cbn [concat]. rewrite <- !app_assoc. reflexivity.
Qed.

(** With root 0 and a binary tree, to_expr returns the text of an expression which shunting_yard_ast reads as the same tree.
    What is missing: any other root, and unary operators (next theorem). *)
Theorem C74_to_expr_binary_partial (t : ast str) n us ops fuel : ast_root t = Some 0 -> is_tree t 0 n us -> binary n -> size n <= fuel ->
  ~ In (lit "(") (dkeys ops) -> ~ In (lit ")") (dkeys ops) -> (forall a, In a (post_order n) -> a <> lit "(" /\ a <> lit ")") -> ranked ops n ->
  (forall a p, dget ops a = Some p -> cardinality p <> 0) ->
  exists tokens, to_expr fuel t = Ok (concat tokens) /\
    exists t' root, shunting_yard_ast (lit "(") (lit ")") ops tokens = Ok (t', root) /\ is_tree t' root n (G_vertices (ast_graph t')).
Proof.
  intros ER TR B L N1 N2 NP R NZ. exists (infix (lit "(") (lit ")") (with_pars n)). split.
  - unfold to_expr. rewrite ER. eapply to_expr_rec_binary; eassumption.
  - clear TR L. assert (X : fits (lit "(") (lit ")") ops (with_pars n) /\ arities ops (with_pars n) /\ syntax (with_pars n) = n /\ left_border (with_pars n) = [] /\ right_border (with_pars n) = []).
    { induction B as [a|a x y Bx IHx By IHy]; inversion R as [a' l E RL]; subst.
      - cbn. destruct (NP a) as (P1 & P2); [left; reflexivity|]. unfold operand. repeat split; auto. apply dget_None. destruct (dget ops a) as [p|] eqn:Ea; [|reflexivity].
        destruct (NZ a p Ea). symmetry. exact E.
      - cbn [post_order flat_map] in NP. destruct IHx as (F1 & A1 & S1 & L1 & R1); [intros b I; apply NP; rewrite !in_app_iff; auto|apply RL; left; reflexivity|].
        destruct IHy as (F2 & A2 & S2 & L2 & R2); [intros b I; apply NP; rewrite !in_app_iff; auto|apply RL; right; left; reflexivity|].
        cbn [with_pars fits arities syntax left_border right_border]. rewrite R1, L2, S1, S2.
        destruct (NP a) as (P1 & P2); [rewrite !in_app_iff; right; left; reflexivity|].
        destruct (dget ops a) as [p|] eqn:Ea; [|discriminate]. cbn in E. unfold operator. repeat split; auto; try (intros o []). { eapply dget_Some_key; exact Ea. } exists p. auto. }
    destruct X as (F & A & S & _). destruct (C73_ast (lit "(") (lit ")") ops (with_pars n)) as (t' & root & E & _ & TR); try assumption; [discriminate|].
    exists t', root. rewrite S in TR. auto.
Qed.
Print Assumptions C74_to_expr_binary_partial.

Definition t74 : ast str := mkAst (mkGraph 5 [(0, [(1, [0]); (2, [0])]); (1, [(3, [0]); (4, [0])]); (2, []); (3, []); (4, [])])
  [(0, lit "*"); (1, lit "+"); (2, lit "c"); (3, lit "a"); (4, lit "b")] (Some 0).
Definition n74 : node str := Node (lit "*") [Node (lit "+") [Node (lit "a") []; Node (lit "b") []]; Node (lit "c") []].
Example t74_tree : is_tree t74 0 n74 [3; 4; 1; 2; 0] /\ binary n74 /\ ranked ops73 n74.
Proof.
  split; [|split; [repeat constructor|]].
  - apply (IsTree t74 0 _ _ [3; 4; 1; 2]); [reflexivity|]. apply (AreCons t74 1 [2] _ _ [3; 4; 1] [2]).
    + apply (IsTree t74 1 _ _ [3; 4]); [reflexivity|]. apply (AreCons t74 3 [4] _ _ [3] [4]).
      * apply (IsTree t74 3 _ _ []); [reflexivity|constructor].
      * apply (AreCons t74 4 [] _ _ [4] []); [|constructor]. apply (IsTree t74 4 _ _ []); [reflexivity|constructor].
    + apply (AreCons t74 2 [] _ _ [2] []); [|constructor]. apply (IsTree t74 2 _ _ []); [reflexivity|constructor].
  - repeat (constructor; [reflexivity|]; intros ? X; repeat (destruct X as [<-|X]); try destruct X).
Qed.
Example t74_run : to_expr 5 t74 = Ok (lit "((a+b)*c)").
Proof. vm_compute. reflexivity. Qed.

Lemma to_expr_unary t : forall fuel n u us, is_tree t u n us -> size n <= fuel ->
  (exists s, to_expr_rec fuel t u = Ok s /\ ~ has_unary n) \/ (to_expr_rec fuel t u = Raise TypeError /\ has_unary n).
Proof.
  induction fuel as [|fuel IH]; intros [a l] u us TR L; [cbn in L; lia|]. inversion TR as [u' a' l' us1 EL ET]; subst. cbn [to_expr_rec]. unfold Ast_symbol. rewrite EL. cbn [rbind].
  assert (EN : length l = G_out_degree (ast_graph t) u) by (apply are_trees_length in ET; rewrite map_length in ET; symmetry; exact ET). rewrite <- EN.
  destruct l as [|x [|y l]]; cbn [length].
  - left. exists a. split; [reflexivity|]. intros X. inversion X as [|a' l x I]; subst. destruct I.
  - right. split; [reflexivity|constructor].
  - fold (Ast_children t u) in ET. assert (M : (exists ss, mapM (to_expr_rec fuel t) (Ast_children t u) = Ok ss /\ (forall z, In z (x :: y :: l) -> ~ has_unary z)) \/
      (mapM (to_expr_rec fuel t) (Ast_children t u) = Raise TypeError /\ exists z, In z (x :: y :: l) /\ has_unary z)).
    { assert (LL : forall z, In z (x :: y :: l) -> size z <= fuel).
      { assert (G : forall (k : list (node str)) z, In z k -> size z <= fold_right (fun x s => size x + s) 0 k).
        { induction k as [|w k IHk]; intros z; [intros []|]. intros [<-|I]; cbn; [lia|]. apply IHk in I. lia. }
        intros z I. apply G in I. cbn [size] in L. lia. }
      clear EN TR EL L. revert LL ET. generalize (x :: y :: l) as k. intros k LL ET. induction ET as [|v vs z k l1 l2 T1 T2 IHT]; cbn [mapM].
      - left. exists []. split; [reflexivity|intros z []].
      - destruct (IH z v l1 T1 (LL z (or_introl eq_refl))) as [(s & -> & NU)|(-> & U)]; cbn [rbind].
        + destruct IHT as [(ss & -> & NN)|(-> & w & Iw & Uw)]; [intros w I; apply LL; right; exact I| |]; cbn [rbind].
          * left. eexists. split; [reflexivity|]. intros w [<-|I]; auto.
          * right. split; [reflexivity|]. exists w. split; [right; exact Iw|exact Uw].
        + right. split; [reflexivity|]. exists z. split; [left; reflexivity|exact U]. }
    destruct M as [(ss & -> & NN)|(-> & w & Iw & Uw)]; cbn [rbind].
    + left. eexists. split; [reflexivity|]. intros X. inversion X as [|a' l' z I U]; subst. apply (NN z I U).
    + right. split; [reflexivity|]. econstructor; eassumption.
Qed.
(** With root 0, to_expr raises TypeError exactly on the trees with a unary operator. *)
Theorem C74_to_expr_unary (t : ast str) n us fuel : ast_root t = Some 0 -> is_tree t 0 n us -> size n <= fuel ->
  (has_unary n -> to_expr fuel t = Raise TypeError) /\ (~ has_unary n -> exists s, to_expr fuel t = Ok s).
Proof.
  intros ER TR L. unfold to_expr. rewrite ER. destruct (to_expr_unary t fuel n 0 us TR L) as [(s & -> & NU)|(-> & U)]; split; intros X; eauto; contradiction.
Qed.
Print Assumptions C74_to_expr_unary.
