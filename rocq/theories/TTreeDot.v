(** Theorem C113: the DOT texts of the BK-trees and of the abstract syntax trees. *)
From Coq Require Import String Lia.
From Verif Require Import Str Graph Automaton ShuntingYard BKTree BKSpec BKProofs TBKTree Ast AstSpec AstProofs TAst Graphviz GraphvizSpec GraphvizProofs GraphvizProofs2.
From Verif Require Import GraphDp TGraphDp DotSpec DotProofs DotProofs2 TDot AutDot TAutDot TreeDot.
From Verif Require Import Base BaseProofs.
Open Scope string_scope.
Open Scope nat_scope.
Open Scope list_scope.

(** ** Specification *)

(** the node statement of the vertex [u], with this label, then these attributes *)
Definition node_statement (label : str) (others : attributes) (u : nat) (s : statement) : Prop :=
  exists i a, s = SNode i (a ++ others) /\ numbered i = Some u /\ label_attribute (Some label) a.
(** the edge statement of the arc from [u] to [v] *)
Definition arc_statement (label : option str) (u v : nat) (s : statement) : Prop :=
  exists i j a, s = SEdge i j a /\ numbered i = Some u /\ numbered j = Some v /\ label_attribute label a.
(** the text is DOT: a directed graph G, the default style, the statements of the nodes, those of the edges *)
Definition drawing (s : str) (nodes edges : list statement) : Prop :=
  dot_read s = Some (Dot true (Some (Name (lit "G"))) (pybgl_style ++ nodes ++ edges)).

(** ** Lemmas *)

Lemma dot_label_cons c v : c <> ch "<" -> dot_label v -> dot_label (c :: v).
Proof.
  intros C H l t E I. remember (c :: v) as w eqn:W. destruct E as [|t' s l' T E'|x s l' N S E'|x s l' S E']; [discriminate| | |].
  - exfalso. destruct (html_tag_lt t' T) as (u & ->). cbn in W. injection W as W _. apply C. now symmetry.
  - injection W as -> ->. destruct I as [I|I]; [discriminate|]. exact (H l' t E' I).
  - injection W as -> ->. destruct I as [I|I]; [discriminate|]. exact (H l' t E' I).
Qed.
Lemma dot_label_app p v : ~ In (ch "<") p -> dot_label v -> dot_label (p ++ v).
Proof. induction p as [|c p IH]; intros N H; [exact H|]. cbn. apply dot_label_cons; [intros ->; apply N; now left|]. apply IH; [intros I; apply N; now right|exact H]. Qed.
Lemma dot_label_nil : dot_label [].
Proof. apply label_scan. reflexivity. Qed.
Lemma str_nat_lt n : ~ In (ch "<") (str_nat n).
Proof. intros I. pose proof (digits_nat n) as D. rewrite forallb_forall in D. specialize (D _ I). discriminate D. Qed.
Lemma dot_label_nat n : dot_label (str_nat n).
Proof. rewrite <- (app_nil_r (str_nat n)). apply dot_label_app; [apply str_nat_lt|apply dot_label_nil]. Qed.

Lemma attributes_label_cons {X} (x : X) p v d a : p x = Some v -> attributes_of x ((lit "label", p) :: d) a ->
  exists a1 a2, a = a1 ++ a2 /\ label_attribute (Some v) a1 /\ attributes_of x d a2.
Proof.
  intros P H. inversion H as [|k p' d' a' N R|p' w l d' a' S E R|k p' w d' a' K S R]; subst; [congruence| |now destruct K].
  assert (w = v) as -> by congruence. eexists [_], a'. split; [reflexivity|]. split; [|exact R]. exists l. split; [exact E|reflexivity].
Qed.

Lemma Forall2_imp_in {X Y} (P Q : X -> Y -> Prop) l m : Forall2 P l m -> (forall x y, In x l -> P x y -> Q x y) -> Forall2 Q l m.
Proof. induction 1 as [|x y l m H _ IH]; intros K; constructor; [apply K; [now left|exact H]|]. apply IH. intros a b I. apply K. now right. Qed.

(** the vertices of a BK-tree have elements; no vertex is final *)
Definition elements_in {X} (t : bktree X) (l : list X) : Prop :=
  (forall u, In u (A_vertices (bk_aut t)) -> dget (bk_element t) u <> None) /\
  (forall u x, dget (bk_element t) u = Some x -> In x l) /\ (forall u, au_final (bk_aut t) u = false).
Lemma bk_add_vertex_in {X} (t : bktree X) l w : elements_in t l -> In w l -> exists t' u, bk_add_vertex t w = (t', Ok u) /\ elements_in t' l.
Proof.
  intros (H1 & H2 & H3) I. unfold bk_add_vertex, A_add_vertex. eexists _, _. split; [reflexivity|]. split; [|split].
  - cbn [bk_aut bk_element]. intros u. unfold A_vertices. cbn [au_adj]. rewrite In_dkeys_dset, dget_dset. destruct (eqb_spec u (au_last (bk_aut t))); [discriminate|].
    intros [->|J]; [congruence|]. now apply H1.
  - cbn [bk_element]. intros u x. rewrite dget_dset. destruct (eqb_spec u (au_last (bk_aut t))); [intros [= <-]; exact I|apply H2].
  - exact H3.
Qed.
Lemma bk_descend_in {X} (distance : X -> X -> nat) fuel w l : In w l -> forall (t : bktree X) u t' r, elements_in t l -> bk_descend distance fuel t w u = Some (t', r) -> elements_in t' l.
Proof.
  intros I. induction fuel as [|fuel IH]; intros t u t' r H; cbn [bk_descend]; [discriminate|].
  destruct (dget (bk_element t) u) as [x|] eqn:Q; [|intros [= <- _]; exact H]. cbv zeta. destruct (_ =? 0); [intros [= <- _]; exact H|].
  destruct (A_delta (bk_aut t) u _); [now apply IH|]. destruct (bk_add_vertex_in t l w H I) as (t1 & v & -> & H').
  destruct (A_add_edge (bk_aut t1) u v _) as [g [b|e]] eqn:Q2; intros [= <- _]; revert Q2; unfold A_add_edge; destruct (negb _); try (intros [= <-]; destruct t1; exact H'); try discriminate;
    destruct (dget (au_adj (bk_aut t1)) u) as [d|] eqn:Q3; intros [= <-]; try (destruct t1; exact H').
  destruct H' as (H1 & H2 & H3). split; [|split]; [|exact H2|exact H3]. cbn [bk_aut bk_element]. intros x1. unfold A_vertices. cbn [au_adj]. rewrite In_dkeys_dset.
  intros [->|J]; apply H1; [eapply dget_Some_key; eassumption|exact J].
Qed.
Lemma bk_inserts_in {X} (distance : X -> X -> nat) fuel L l : incl l L -> forall t t' : bktree X, elements_in t L -> bk_inserts distance fuel l t = Some (t', Ok tt) -> elements_in t' L.
Proof.
  intros C. induction l as [|w l IH]; intros t t' H; cbn [bk_inserts]; [intros [= <-]; exact H|].
  assert (I : In w L) by (apply C; now left). destruct (bk_insert distance fuel t w None) as [[t1 [u|e]]|] eqn:Q; try discriminate.
  apply IH; [intros x J; apply C; now right|]. unfold bk_insert in Q. destruct (bk_root t) as [r|]; [exact (bk_descend_in _ _ _ _ I _ _ _ _ H Q)|].
  destruct (bk_add_vertex_in t L w H I) as (t2 & v & E & H'). rewrite E in Q. injection Q as <- _. exact H'.
Qed.

(** ** BKTree.to_dot *)

(** C113: the text written for the BK-tree of [l], for any distance: one node per vertex, labelled by the element, drawn as a circle; one edge per
    arc, labelled by the distance. *)
Theorem C113_bk_tree {X} tags (text : X -> str) distance fuel (l : list X) t : Permutation tags GRAPHVIZ_SUPPORTED_HTML_TAGS ->
  make_bk_tree distance fuel l = Some (t, Ok tt) -> (forall x, In x l -> dot_label (text x)) ->
  exists s nodes edges, bk_to_dot tags text t plain = Ok s /\ drawing s nodes edges /\
    Forall2 (fun u n => exists x, In x l /\ dget (bk_element t) u = Some x /\ node_statement (text x) [(Name (lit "shape"), Name (lit "circle"))] u n) (A_vertices (bk_aut t)) nodes /\
    Forall2 (fun e n => arc_statement (Some (str_nat (distinguisher e))) (source e) (target e) n) (A_edges (bk_aut t)) edges.
Proof.
  intros T B L. assert (H : elements_in t l). { apply (bk_inserts_in distance fuel l l (incl_refl l) bk_init); [|exact B]. split; [intros u []|]. split; [intros u x [=]|reflexivity]. }
  destruct H as (H1 & H2 & H3). set (V := A_vertices (bk_aut t)) in *. set (E := A_edges (bk_aut t)) in *.
  set (lv := fun u => option_map text (dget (bk_element t) u)). set (le := fun e : edge nat => Some (str_nat (distinguisher e))).
  set (o := DotArgs [] [] [] [] [(lit "label", lv); (lit "shape", shape_map (au_final (bk_aut t)))] [(lit "label", le)] None : dot_args_of nat).
  assert (Q : bk_to_dot tags text t plain = Ok (to_dot tags true V E o)).
  { unfold bk_to_dot. cbn [plain kw_dpv enrich_kwargs rbind]. unfold base_to_dot. cbn [kw_set_dpv kw_dpv enrich_kwargs rbind kw_dpe plain]. unfold read_labels.
    cbn [plain kw_dpv kw_vs orb]. replace (forallb _ _) with true; [reflexivity|]. symmetry. apply forallb_forall. intros u I. destruct (dmem _ u) eqn:D; [reflexivity|].
    apply dmem_false in D. destruct (H1 u I). apply dget_None. exact D. }
  rewrite Q. destruct (C98_dot_partial tags true V E o pybgl_style []) as (nodes & edges & FV & FE & R).
  - exact T.
  - unfold args_dot. cbn [o graphviz_style extra_style dg dv de dpv dpe]. split; [reflexivity|]. split; [now left|].
    split; [intros k v []|]. split; [intros k v []|]. split; [intros k v []|]. split.
    + intros k p x v [I|[I|[]]] J P; injection I as <- <-.
      * split; [apply key_check; reflexivity|]. split; [|congruence]. intros _. unfold lv in P. destruct (dget (bk_element t) x) as [y|] eqn:G; [|discriminate]. injection P as <-. apply L, (H2 x), G.
      * split; [apply key_check; reflexivity|]. split; [discriminate|]. intros _. unfold shape_map in P. rewrite H3 in P. injection P as <-. apply value_check. reflexivity.
    + intros k p x v [I|[]] J P. injection I as <- <-. split; [apply key_check; reflexivity|]. split; [|congruence]. intros _. injection P as <-. apply dot_label_nat.
  - exists (to_dot tags true V E o), nodes, edges. split; [reflexivity|]. split; [exact R|]. split.
    + apply (Forall2_imp_in _ _ _ _ FV). intros u n I (i & a & -> & N & O). destruct (dget (bk_element t) u) as [x|] eqn:G; [|destruct (H1 u I G)].
      exists x. split; [exact (H2 u x G)|]. split; [reflexivity|]. cbn [o dpv] in O.
      destruct (attributes_label_cons u lv (text x) [(lit "shape", shape_map (au_final (bk_aut t)))] a) as (a1 & a2 & -> & A1 & A2); [unfold lv; rewrite G; reflexivity|exact O|].
      destruct (attributes_shape u (shape_map (au_final (bk_aut t))) [] a2 _ eq_refl A2) as (a3 & -> & A3). inversion A3; subst. rewrite H3. exists i, a1. split; [reflexivity|]. split; [exact N|exact A1].
    + clear Q R FV. induction FE as [|e n E' edges H _ IH]; constructor; [|exact IH]. destruct H as (i & j & a & -> & N & N' & O). exists i, j, a.
      split; [reflexivity|]. split; [exact N|]. split; [exact N'|]. exact (attributes_label _ _ _ O).
Qed.
(** the arcs of a BK-tree have positive distances *)
Definition positive {X} (t : bktree X) : Prop := forall u D d, dget (au_adj (bk_aut t)) u = Some D -> In d (dkeys D) -> d <> 0.
Lemma bk_add_vertex_positive {X} (t : bktree X) w t' u : positive t -> bk_add_vertex t w = (t', Ok u) -> positive t'.
Proof.
  unfold bk_add_vertex, A_add_vertex. intros H [= <- _] v D d. cbn [bk_aut au_adj]. rewrite dget_dset. destruct (eqb_spec v (au_last (bk_aut t))); [intros [= <-] []|apply H].
Qed.
Lemma bk_descend_positive {X} (distance : X -> X -> nat) fuel w : forall (t : bktree X) u t' r, positive t -> bk_descend distance fuel t w u = Some (t', r) -> positive t'.
Proof.
  induction fuel as [|fuel IH]; intros t u t' r H; cbn [bk_descend]; [discriminate|].
  destruct (dget (bk_element t) u) as [x|] eqn:Q; [|intros [= <- _]; exact H]. cbv zeta. destruct (distance w x =? 0) eqn:Z; [intros [= <- _]; exact H|].
  destruct (A_delta (bk_aut t) u _); [now apply IH|]. destruct (bk_add_vertex t w) as [t1 [v|e]] eqn:Q1; [|unfold bk_add_vertex, A_add_vertex in Q1; discriminate].
  pose proof (bk_add_vertex_positive t w t1 v H Q1) as H'. apply Nat.eqb_neq in Z.
  destruct (A_add_edge (bk_aut t1) u v _) as [g [b|e]] eqn:Q2; intros [= <- _]; revert Q2; unfold A_add_edge; destruct (negb _); try (intros [= <-]; destruct t1; exact H'); try discriminate;
    destruct (dget (au_adj (bk_aut t1)) u) as [D|] eqn:Q3; intros [= <-]; try (destruct t1; exact H').
  intros y D' d. cbn [bk_aut au_adj]. rewrite dget_dset. destruct (eqb_spec y u); [|apply H']. intros [= <-]. rewrite In_dkeys_dset. intros [->|J]; [exact Z|exact (H' u D d Q3 J)].
Qed.
Lemma bk_inserts_positive {X} (distance : X -> X -> nat) fuel l : forall t t' : bktree X, positive t -> bk_inserts distance fuel l t = Some (t', Ok tt) -> positive t'.
Proof.
  induction l as [|w l IH]; intros t t' H; cbn [bk_inserts]; [intros [= <-]; exact H|].
  destruct (bk_insert distance fuel t w None) as [[t1 [u|e]]|] eqn:Q; try discriminate.
  apply IH. unfold bk_insert in Q. destruct (bk_root t) as [r|]; [exact (bk_descend_positive _ _ _ _ _ _ _ H Q)|].
  destruct (bk_add_vertex t w) as [t2 [v|e]] eqn:Q1; [|discriminate]. injection Q as <- _. exact (bk_add_vertex_positive t w t2 v H Q1).
Qed.
Lemma ids_elems {X} (g : bktree X) b : rep g b -> forall u, In u (ids b) -> exists x, dget (bk_element g) u = Some x /\ In x (elems b).
Proof.
  induction b as [r x ch IH] using bt_induction. intros R u. inversion R as [? ? ? R1 R2 R3]; subst. cbn [ids elems]. intros [<-|I]; [exists x; split; [exact R1|now left]|].
  apply in_flat_map in I. destruct I as ([d c] & I & J). destruct (IH d c I (R3 d c I) u J) as (y & E & K). exists y. split; [exact E|]. right. apply in_flat_map. exists (d, c). auto.
Qed.
Lemma elems_ids {X} (g : bktree X) b : rep g b -> forall x, In x (elems b) -> exists u, In u (ids b) /\ dget (bk_element g) u = Some x.
Proof.
  induction b as [r y ch IH] using bt_induction. intros R x. inversion R as [? ? ? R1 R2 R3]; subst. cbn [ids elems]. intros [<-|I]; [exists r; split; [now left|exact R1]|].
  apply in_flat_map in I. destruct I as ([d c] & I & J). destruct (IH d c I (R3 d c I) x J) as (u & K & E). exists u. split; [|exact E]. right. apply in_flat_map. exists (d, c). auto.
Qed.
Lemma once {X} (distance : X -> X -> nat) (g : bktree X) b : metric distance -> positive g -> rep g b -> ok distance b ->
  forall u v, In u (ids b) -> In v (ids b) -> dget (bk_element g) u = dget (bk_element g) v -> u = v.
Proof.
  intros (M0 & _) PG. assert (Z : forall x, distance x x = 0) by (intros; now apply M0). induction b as [r x ch IH] using bt_induction. intros R O u v.
  inversion R as [? ? ? R1 R2 R3]; subst. inversion O as [? ? ? O1 O2]; subst.
  assert (PD : forall d c, In (d, c) ch -> d <> 0).
  { intros d c I. apply (PG r (labels ch) d R2). unfold dkeys, labels. rewrite map_map. apply in_map_iff. exists (d, c). split; [reflexivity|exact I]. }
  assert (CH : forall w, In w (flat_map (fun p => ids (snd p)) ch) -> exists d c y, In (d, c) ch /\ In w (ids c) /\ dget (bk_element g) w = Some y /\ distance y x = d).
  { intros w I. apply in_flat_map in I. destruct I as ([d c] & I & J). destruct (ids_elems g c (R3 d c I) w J) as (y & E & K). exists d, c, y.
    split; [exact I|]. split; [exact J|]. split; [exact E|]. apply (O2 d c I), K. }
  cbn [ids]. intros [<-|I] [<-|J] Q; [reflexivity| | |].
  - exfalso. destruct (CH v J) as (d & c & y & K1 & _ & K2 & K3). assert (y = x) as -> by congruence. apply (PD d c K1). rewrite <- K3. apply Z.
  - exfalso. destruct (CH u I) as (d & c & y & K1 & _ & K2 & K3). assert (y = x) as -> by congruence. apply (PD d c K1). rewrite <- K3. apply Z.
  - destruct (CH u I) as (d & c & y & K1 & K2 & K3 & K4). destruct (CH v J) as (d' & c' & y' & K1' & K2' & K3' & K4'). assert (y' = y) as -> by congruence.
    assert (d' = d) as -> by congruence. assert (c' = c) as ->. { apply In_dget in K1, K1'; try exact O1. congruence. }
    apply (IH d c K1 (R3 d c K1) (proj2 (O2 d c K1)) u v K2 K2' Q).
Qed.

(** With a metric, the nodes show each element of [l] once. *)
Theorem C113_bk_tree_elements {X} (distance : X -> X -> nat) fuel (l : list X) t : metric distance -> length l <= fuel ->
  make_bk_tree distance fuel l = Some (t, Ok tt) ->
  (forall u, In u (A_vertices (bk_aut t)) <-> dget (bk_element t) u <> None) /\
  (forall x, In x l <-> exists u, dget (bk_element t) u = Some x) /\
  (forall u v x, dget (bk_element t) u = Some x -> dget (bk_element t) v = Some x -> u = v).
Proof.
  intros M F B. pose proof B as B'. assert (P : positive t) by (apply (bk_inserts_positive distance fuel l bk_init t); [intros u D d [=]|exact B]).
  assert (EL : elements_in t l). { apply (bk_inserts_in distance fuel l l (incl_refl l) bk_init); [|exact B]. split; [intros u []|]. split; [intros u x [=]|reflexivity]. }
  destruct (inserts_spec distance M l [] bk_init) as (t' & H1 & H2); [split; reflexivity|]. specialize (H1 fuel F). unfold make_bk_tree in B. rewrite B in H1. injection H1 as <-. cbn [app] in H2.
  unfold built in H2. destruct (bk_root t) as [root|].
  - destruct H2 as (b & <- & R & O & _ & _ & E & S & K). split; [|split].
    + intros u. split; [apply EL|]. intros I. specialize (K u I). destruct (sub_at b u K) as (s & SB & <-). destruct (sub_facts distance t s b SB R O) as (R' & _).
      inversion R' as [? ? ? _ R2 _]; subst. eapply dget_Some_key. exact R2.
    + intros x. rewrite <- E. split; [intros I; destruct (elems_ids t b R x I) as (u & _ & Q); eauto|]. intros (u & Q). destruct (ids_elems t b R u) as (y & Q' & I); [apply K; congruence|]. congruence.
    + intros u v x Qu Qv. apply (once distance t b M P R O); [apply K; congruence|apply K; congruence|congruence].
  - destruct H2 as [-> ->]. split; [|split].
    + intros u. split; [intros []|intros N; now destruct N].
    + intros x. split; [intros []|intros (u & [=])].
    + intros u v x [=].
Qed.

(** ** Ast.to_dot *)
(** what holds of the output of the shunting yard as long as tokens of the expression are appended *)
Section Sink.
  Context {T O : Type} `{EqDec T}.
  Variables (lpar rpar : T) (ops : dict T Op) (push : O -> T -> res O) (P : O -> Prop) (L : list T).
  Hypothesis HP : forall o a o', P o -> In a L -> push o a = Ok o' -> P o'.
  Lemma close_keeps : forall st o st' o', P o -> incl st L -> close_loop lpar push st o = Ok (st', o') -> P o' /\ incl st' L.
  Proof.
    induction st as [|y st IH]; intros o st' o' Ho C; cbn [close_loop]; [discriminate|]. apply incl_cons_inv in C. destruct C as [I C].
    destruct (eqb y lpar); [intros [= <- <-]; auto|]. destruct (push o y) as [o1|] eqn:Q; [|discriminate]. cbn [rbind]. apply IH; [exact (HP _ _ _ Ho I Q)|exact C].
  Qed.
  Lemma pop_keeps op : forall st o st' o', P o -> incl st L -> pop_loop ops push op st o = Ok (st', o') -> P o' /\ incl st' L.
  Proof.
    induction st as [|y st IH]; intros o st' o' Ho C; cbn [pop_loop]; [intros [= <- <-]; auto|]. destruct (preceeds ops y op); [|intros [= <- <-]; auto].
    apply incl_cons_inv in C. destruct C as [I C]. destruct (push o y) as [o1|] eqn:Q; [|discriminate]. cbn [rbind]. apply IH; [exact (HP _ _ _ Ho I Q)|exact C].
  Qed.
  Lemma tokens_keep : forall expr st o st' o', P o -> incl st L -> incl expr L -> tokens_loop lpar rpar ops push (st, o) expr = Ok (st', o') -> P o' /\ incl st' L.
  Proof.
    induction expr as [|a expr IH]; intros st o st' o' Ho C Ce; cbn [tokens_loop]; [intros [= <- <-]; auto|]. apply incl_cons_inv in Ce. destruct Ce as [I Ce].
    destruct (token_step lpar rpar ops push (st, o) a) as [[st1 o1]|] eqn:Q; [|discriminate]. cbn [rbind]. assert (P o1 /\ incl st1 L) as [P1 C1]; [|now apply IH].
    unfold token_step in Q. destruct (eqb a lpar); [injection Q as <- <-; split; [exact Ho|now apply incl_cons]|]. destruct (eqb a rpar); [exact (close_keeps _ _ _ _ Ho C Q)|].
    destruct (dget ops a) as [op|].
    - destruct (pop_loop ops push op st o) as [[st2 o2]|] eqn:Q2; [|discriminate]. injection Q as <- <-. destruct (pop_keeps _ _ _ _ _ Ho C Q2). split; [assumption|now apply incl_cons].
    - destruct (push o a) as [o2|] eqn:Q2; [|discriminate]. injection Q as <- <-. split; [exact (HP _ _ _ Ho I Q2)|exact C].
  Qed.
  Lemma postfix_keeps o o' : P o -> shunting_yard_postfix lpar rpar ops push L o = Ok o' -> P o'.
  Proof.
    intros Ho. unfold shunting_yard_postfix. destruct (tokens_loop lpar rpar ops push ([], o) L) as [[st o1]|] eqn:Q; [|discriminate]. cbn [rbind].
    destruct (tokens_keep L [] o st o1 Ho (incl_nil_l L) (incl_refl L) Q) as [P1 C1]. clear Q. revert o1 P1. induction st as [|y st IH]; intros o1 P1; cbn [flush]; [intros [= <-]; exact P1|].
    apply incl_cons_inv in C1. destruct C1 as [I C1]. destruct (push o1 y) as [o2|] eqn:Q; [|discriminate]. cbn [rbind]. apply IH; [exact C1|exact (HP _ _ _ P1 I Q)].
  Qed.
End Sink.
(** the vertices of a syntax tree have tokens of the expression *)
Definition tokens_in {T} (t : ast T) (L : list T) : Prop :=
  (forall u, In u (G_vertices (ast_graph t)) -> dget (ast_label t) u <> None) /\ (forall u a, dget (ast_label t) u = Some a -> In a L).
Lemma ast_edges_in {T} (L : list T) u : forall vs t t' r, tokens_in t L -> foreach (fun t v => Ast_add_edge t u v) t vs = (t', Ok r) -> tokens_in t' L.
Proof.
  induction vs as [|v vs IH]; intros t t' r Ht; cbn [foreach]; [intros [= <- _]; exact Ht|]. unfold Ast_add_edge at 1. destruct (G_add_edge (ast_graph t) u v) as [g [e|e]] eqn:Q; [|discriminate].
  apply IH. destruct Ht as [H1 H2]. split; [|exact H2]. cbn [ast_graph ast_label]. intros x I. apply H1. revert I. unfold G_add_edge in Q.
  destruct (dget (adjacencies (ast_graph t)) u) as [d|] eqn:D; [|discriminate].
  destruct (match dget d v with None => _ | Some _ => _ end) as [n s']. injection Q as <- _. unfold G_vertices. cbn [adjacencies]. rewrite In_dkeys_dset.
  intros [->|J]; [eapply dget_Some_key; exact D|exact J].
Qed.
Lemma push_ast_in {T} `{EqDec T} (L : list T) ops : forall o a o', tokens_in (fst o) L -> In a L -> push_ast ops o a = Ok o' -> tokens_in (fst o') L.
Proof.
  intros [t dq] a o' [H1 H2] I. unfold push_ast, Ast_add_vertex, G_add_vertex. cbn [fst] in *.
  set (t1 := mkAst _ (dset (ast_label t) _ a) _).
  assert (K : tokens_in t1 L).
  { split; cbn [t1 ast_graph ast_label].
    - intros u. unfold G_vertices. cbn [adjacencies]. rewrite In_dkeys_dset, dget_dset. destruct (eqb_spec u (last_vertex_id (ast_graph t))); [discriminate|]. intros [->|J]; [congruence|exact (H1 u J)].
    - intros u b. rewrite dget_dset. destruct (eqb_spec u (last_vertex_id (ast_graph t))); [intros [= <-]; exact I|apply H2]. }
  destruct (dget ops a) as [op|]; [|intros [= <-]; exact K]. destruct (pops (cardinality op) dq []) as [[vs dq1]|]; [|discriminate]. cbn [rbind].
  destruct (foreach _ t1 vs) as [t2 [r|e]] eqn:Q; [|discriminate]. intros [= <-]. exact (ast_edges_in L _ _ _ _ _ K Q).
Qed.
(** C113: the text written for the tree returned by shunting_yard_ast: one node per vertex, labelled by its number and its token; one edge per arc. *)
Theorem C113_ast {T} `{EqDec T} tags (text : T -> str) lpar rpar ops expression t root : Permutation tags GRAPHVIZ_SUPPORTED_HTML_TAGS ->
  shunting_yard_ast lpar rpar ops expression = Ok (t, root) ->
  (forall a, In a expression -> dot_label (text a)) ->
  exists s nodes edges, Ast_to_dot tags text t plain = Ok s /\ drawing s nodes edges /\
    Forall2 (fun u n => exists a, In a expression /\ dget (ast_label t) u = Some a /\ node_statement (str_nat u ++ lit " " ++ text a) [] u n) (G_vertices (ast_graph t)) nodes /\
    Forall2 (fun e n => arc_statement None (source e) (target e) n) (G_edges (ast_graph t)) edges.
Proof.
  intros TG Y L.
  assert (K : tokens_in t expression).
  { unfold shunting_yard_ast in Y. destruct (shunting_yard_postfix lpar rpar ops (push_ast ops) expression (Ast_init, [])) as [[t1 ret]|] eqn:Q; [|discriminate]. cbn [rbind] in Y.
    destruct ret as [|r [|]]; try discriminate. injection Y as <- <-.
    apply (postfix_keeps lpar rpar ops (push_ast ops) (fun o => tokens_in (fst o) expression) expression (push_ast_in expression ops) (Ast_init, []) (t1, [r])); [|exact Q].
    split; [intros u []|intros u a [=]]. }
  destruct K as [H1 H2].
  set (V := G_vertices (ast_graph t)) in *. set (E := G_edges (ast_graph t)) in *.
  set (lv := fun u => option_map (fun a => str_nat u ++ lit " " ++ text a) (dget (ast_label t) u)).
  set (o := DotArgs [] [] [] [] [(lit "label", lv)] [] None : dot_args_of nat).
  assert (Q : Ast_to_dot tags text t plain = Ok (to_dot tags true V E o)).
  { unfold Ast_to_dot. cbn [plain kw_dpv enrich_kwargs rbind]. unfold read_labels. cbn [plain kw_dpv kw_vs orb]. replace (forallb _ _) with true; [reflexivity|].
    symmetry. apply forallb_forall. intros u I. destruct (dmem _ u) eqn:D; [reflexivity|]. apply dmem_false in D. destruct (H1 u I). apply dget_None. exact D. }
  rewrite Q. destruct (C98_dot_partial tags true V E o pybgl_style []) as (nodes & edges & FV & FE & R).
  - exact TG.
  - unfold args_dot. cbn [o graphviz_style extra_style dg dv de dpv dpe]. split; [reflexivity|]. split; [now left|].
    split; [intros k v []|]. split; [intros k v []|]. split; [intros k v []|]. split; [|intros k p x v []].
    intros k p x v [I|[]] J P; injection I as <- <-. split; [apply key_check; reflexivity|]. split; [|congruence]. intros _. unfold lv in P.
    destruct (dget (ast_label t) x) as [y|] eqn:G; [|discriminate]. injection P as <-. apply dot_label_app; [apply str_nat_lt|].
    apply (dot_label_app (lit " ") (text y)); [intros [I|[]]; discriminate I|exact (L y (H2 x y G))].
  - exists (to_dot tags true V E o), nodes, edges. split; [reflexivity|]. split; [exact R|]. split.
    + apply (Forall2_imp_in _ _ _ _ FV). intros u n I (i & a & -> & N & O). destruct (dget (ast_label t) u) as [x|] eqn:G; [|destruct (H1 u I G)].
      exists x. split; [exact (H2 u x G)|]. split; [reflexivity|]. cbn [o dpv] in O.
      destruct (attributes_label_cons u lv (str_nat u ++ lit " " ++ text x) [] a) as (a1 & a2 & -> & A1 & A2); [unfold lv; rewrite G; reflexivity|exact O|].
      inversion A2; subst. exists i, a1. split; [reflexivity|]. split; [exact N|exact A1].
    + apply (Forall2_imp_in _ _ _ _ FE). intros e n I (i & j & a & -> & N & N' & O). exists i, j, a. split; [reflexivity|]. split; [exact N|]. split; [exact N'|].
      inversion O; subst. reflexivity.
Qed.

(** ** The arguments of the caller *)

(** C113: a label given by the caller replaces the elements (resp. the tokens); None for dpv raises AttributeError. *)
Theorem C113_arguments {X} tags (text : X -> str) (t : bktree X) (u : ast X) k :
  (kw_dpv k = GivenNone -> bk_to_dot tags text t k = Raise AttributeError /\ Ast_to_dot tags text u k = Raise AttributeError) /\
  (forall d p, kw_dpv k = Given d -> dget d (lit "label") = Some p ->
    bk_to_dot tags text t k = A_to_dot tags str_nat (bk_aut t) k /\
    Ast_to_dot tags text u k = Ok (Graph_to_dot tags true (G_vertices (ast_graph u)) (G_edges (ast_graph u)) k)).
Proof.
  split; [intros E; unfold bk_to_dot, Ast_to_dot; rewrite E; split; reflexivity|]. intros d p E L.
  assert (D : dmem d (lit "label") = true) by (unfold dmem; now rewrite L).
  assert (Q : kw_set_dpv k (Given d) = k) by (destruct k; cbn in *; now rewrite <- E).
  unfold bk_to_dot, Ast_to_dot. rewrite E. cbn [enrich_kwargs rbind enrich_dict fold_left]. rewrite !D, !Q. unfold read_labels. rewrite E, !D. cbn [orb].
  split; [unfold A_to_dot; destruct (base_to_dot _ _ _ _ _ k); reflexivity|reflexivity].
Qed.

(** C113: a vertex to write has no element (resp. no token): KeyError, unless the caller gives the labels. *)
Theorem C113_missing {X} tags (text : X -> str) (t : bktree X) (u : ast X) k v :
  (kw_dpv k = Absent \/ exists d, kw_dpv k = Given d /\ dget d (lit "label") = None) ->
  (In v (match kw_vs k with Some vs => vs | None => A_vertices (bk_aut t) end) -> dget (bk_element t) v = None -> kw_dpe k <> GivenNone -> bk_to_dot tags text t k = Raise KeyError) /\
  (In v (match kw_vs k with Some vs => vs | None => G_vertices (ast_graph u) end) -> dget (ast_label u) v = None -> Ast_to_dot tags text u k = Raise KeyError).
Proof.
  intros N. assert (R : forall V (vs : list nat) (m : dict nat V) s, In v (match kw_vs k with Some l => l | None => vs end) -> dget m v = None -> read_labels k vs m s = Raise KeyError).
  { intros V vs m s I D. unfold read_labels. replace (forallb _ _) with false.
    - destruct N as [-> | (d & -> & L)]; [reflexivity|]. unfold dmem. rewrite L. reflexivity.
    - symmetry. apply not_true_iff_false. rewrite forallb_forall. intros F. specialize (F v I). unfold dmem in F. rewrite D in F. discriminate F. }
  assert (E : forall p, exists d, enrich_kwargs [(lit "label", p)] (kw_dpv k) = Ok (Given d)).
  { intros p. destruct N as [-> | (d & -> & _)]; eexists; reflexivity. }
  split.
  - intros I D P. unfold bk_to_dot. destruct (E (fun x => option_map text (dget (bk_element t) x))) as (d & ->). cbn [rbind]. unfold base_to_dot. cbn [kw_set_dpv kw_dpv enrich_kwargs rbind kw_dpe].
    destruct (kw_dpe k) as [| |e]; [|congruence|]; cbn [enrich_kwargs rbind]; now apply R.
  - intros I D. unfold Ast_to_dot. destruct (E (fun x => option_map (fun a => str_nat x ++ lit " " ++ text a) (dget (ast_label u) x))) as (d & ->). cbn [rbind]. now apply R.
Qed.

(** ** Examples *)
Definition bk113 : bktree str := match make_bk_tree distance_of 10 [lit "book"; lit "cook"; lit "<b>"] with Some (t, _) => t | None => bk_init end.
Definition bk113_dot : str := match bk_to_dot GRAPHVIZ_SUPPORTED_HTML_TAGS (fun x => x) bk113 plain with Ok s => s | Raise _ => [] end.
Example bk113_ok : forall x, In x [lit "book"; lit "cook"; lit "<b>"] -> dot_label x.
Proof. intros x [<-|[<-|[<-|[]]]]; apply label_scan; reflexivity. Qed.
Definition labelled (s : string) : ident * ident := (Name (lit "label"), Html (lit s)).
Definition circle : ident * ident := (Name (lit "shape"), Name (lit "circle")).
Example bk113_drawing : drawing bk113_dot
  [SNode (Name (lit "0")) [labelled "book"; circle]; SNode (Name (lit "1")) [labelled "cook"; circle]; SNode (Name (lit "2")) [labelled "<b>"; circle]]
  [SEdge (Name (lit "0")) (Name (lit "1")) [labelled "1"]; SEdge (Name (lit "0")) (Name (lit "2")) [labelled "4"]].
Proof. vm_compute. reflexivity. Qed.
(** the operators of [ops73] (TAst.v): a + b! *)
Definition ast113 : ast str := match shunting_yard_ast (lit "(") (lit ")") ops73 [lit "a"; lit "+"; lit "b"; lit "!"] with Ok (t, _) => t | Raise _ => Ast_init end.
Example ast113_drawing : match Ast_to_dot GRAPHVIZ_SUPPORTED_HTML_TAGS (fun x => x) ast113 plain with
  | Ok s => drawing s
      [SNode (Name (lit "0")) [labelled "0 a"]; SNode (Name (lit "1")) [labelled "1 b"]; SNode (Name (lit "2")) [labelled "2 !"]; SNode (Name (lit "3")) [labelled "3 +"]]
      [SEdge (Name (lit "2")) (Name (lit "1")) []; SEdge (Name (lit "3")) (Name (lit "0")) []; SEdge (Name (lit "3")) (Name (lit "2")) []]
  | Raise _ => False
  end.
Proof. vm_compute. reflexivity. Qed.
(** a vertex without element *)
Example bk113_key_error : bk_to_dot GRAPHVIZ_SUPPORTED_HTML_TAGS (fun x => x) (mkBK (A_init 1) [] None : bktree str) plain = Raise KeyError.
Proof. reflexivity. Qed.
(** a label given by the caller *)
Example bk113_given : exists d p k, kw_dpv k = Given d /\ dget d (lit "label") = Some p /\
  match bk_to_dot GRAPHVIZ_SUPPORTED_HTML_TAGS (fun x => x) bk113 k with Ok s => drawing s
    [SNode (Name (lit "0")) [labelled "n"; circle]; SNode (Name (lit "1")) [labelled "n"; circle]; SNode (Name (lit "2")) [labelled "n"; circle]]
    [SEdge (Name (lit "0")) (Name (lit "1")) [labelled "1"]; SEdge (Name (lit "0")) (Name (lit "2")) [labelled "4"]] | Raise _ => False end.
Proof.
  set (d := [(lit "label", fun _ : nat => Some (lit "n"))]). exists d, (fun _ => Some (lit "n")), (kw_set_dpv plain (Given d)).
  split; [reflexivity|]. split; [reflexivity|]. vm_compute. reflexivity.
Qed.
Print Assumptions C113_bk_tree.
Print Assumptions C113_bk_tree_elements.
Print Assumptions C113_ast.
Print Assumptions C113_arguments.
Print Assumptions C113_missing.
