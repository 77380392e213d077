(** Theorem C70 on dfs_tree and bfs_tree. *)
From Coq Require Import Sorted.
From Verif Require Import Base BaseProofs Graph Automaton Search SearchSpec SearchProofs SearchProofs2 TSearch TreeSpec BFSProofs.

Section TreeInd.
  Variable P : tree -> Prop.
  Hypothesis H : forall v l, (forall t, In t l -> P t) -> P (Node v l).
  Fixpoint tree_induction (t : tree) : P t :=
    match t with
    | Node v l => H v l ((fix go (l : list tree) : forall t, In t l -> P t :=
        match l with
        | [] => fun t (I : In t []) => match I with end
        | c :: l' => fun t I => match I with or_introl e => eq_ind c P (tree_induction c) t e | or_intror I' => go l' t I' end
        end) l)
    end.
End TreeInd.

Section T.
  Context {E : Type}.
  Variables (out_edges : nat -> list E) (target : E -> nat).

  (** the calls at one vertex *)
  Definition visit (u : nat) : list (event E) := Discover u :: map Examine (out_edges u) ++ [Finish u].
  Definition size (l : list tree) : nat := length (flat_map nodes l).

  Lemma spans_child v l c : spans out_edges target (Node v l) -> In c l -> spans out_edges target c.
  Proof. intros S I s X. apply S. econstructor; eassumption. Qed.
  Lemma spans_root v l : spans out_edges target (Node v l) -> map target (out_edges v) = map root l.
  Proof. intros S. apply (S (Node v l)). constructor. Qed.
  Lemma size_cons v l F : size (Node v l :: F) = S (size l + size F).
  Proof. unfold size. cbn. rewrite app_length. reflexivity. Qed.
  Lemma size_app F G : size (F ++ G) = size F + size G.
  Proof. unfold size. rewrite flat_map_app, app_length. reflexivity. Qed.
  Lemma size_rev F : size (rev F) = size F.
  Proof. induction F as [|t F IH]; [reflexivity|]. cbn [rev]. rewrite size_app, IH. change (t :: F) with ([t] ++ F). rewrite size_app. lia. Qed.

  Lemma dfs_push_eq (l : list E) : forall stack, dfs_push target l stack = rev (map target l) ++ stack.
  Proof. unfold dfs_push. induction l as [|e l IH]; intros stack; [reflexivity|]. cbn [fold_left map rev]. rewrite IH, <- app_assoc. reflexivity. Qed.
  Lemma bfs_push_eq (l : list E) : forall stack, bfs_push target l stack = stack ++ map target l.
  Proof. unfold bfs_push. induction l as [|e l IH]; intros stack; [symmetry; apply app_nil_r|]. cbn [fold_left map]. rewrite IH, <- app_assoc. reflexivity. Qed.

  (** preorder, the last child first *)
  Fixpoint last_first (t : tree) : list nat := let '(Node v l) := t in v :: rev (flat_map (fun c => rev (last_first c)) l).
  Lemma last_first_rev l : rev (flat_map (fun c => rev (last_first c)) l) = flat_map last_first (rev l).
  Proof.
    induction l as [|c l IH]; [reflexivity|]. cbn [flat_map rev]. rewrite rev_app_distr, rev_involutive, IH, flat_map_app. cbn. rewrite app_nil_r. reflexivity.
  Qed.

  Lemma calls_visit {St} (vis : event E -> St -> res St) u l st : calls vis (flat_map visit (u :: l)) st = rbind (calls vis ([Discover u] ++ map Examine (out_edges u) ++ [Finish u]) st) (calls vis (flat_map visit l)).
  Proof. cbn [flat_map]. rewrite calls_app. reflexivity. Qed.

  Lemma dfs_loop_spec {St} (vis : event E -> St -> res St) n : forall F, size F <= n -> (forall t, In t F -> spans out_edges target t) ->
    forall fuel st, n <= fuel -> tree_loop out_edges vis (dfs_push target) fuel (map root F) st = Some (calls vis (flat_map visit (flat_map last_first F)) st).
  Proof.
    induction n as [|n IH]; intros F L S fuel st LE.
    - destruct F as [|[v l] F]; [destruct fuel; reflexivity|rewrite size_cons in L; lia].
    - destruct F as [|[v l] F]; [destruct fuel; reflexivity|]. rewrite size_cons in L. destruct fuel as [|fuel]; [lia|]. cbn [tree_loop map root].
      cbn [flat_map last_first]. rewrite last_first_rev. change ((v :: flat_map last_first (rev l)) ++ flat_map last_first F) with (v :: flat_map last_first (rev l) ++ flat_map last_first F). rewrite calls_visit. destruct (calls vis ([Discover v] ++ map Examine (out_edges v) ++ [Finish v]) st) as [st1|x]; cbn [rbind]; [|reflexivity].
      rewrite dfs_push_eq, (spans_root v l) by (apply S; left; reflexivity). rewrite <- map_rev, <- map_app. rewrite IH; [rewrite flat_map_app; reflexivity| | |lia].
      + rewrite size_app, size_rev. lia.
      + intros t I. apply in_app_or in I. destruct I as [I|I]; [apply in_rev in I; apply (spans_child v l); [apply S; left; reflexivity|exact I]|apply S; right; exact I].
  Qed.

  Lemma flat_map_perm_in {X Y} (f g : X -> list Y) l : (forall x, In x l -> Permutation (f x) (g x)) -> Permutation (flat_map f l) (flat_map g l).
  Proof. induction l as [|x l IH]; intros H; [constructor|]. cbn. apply Permutation_app; [apply H; left; reflexivity|apply IH; intros; apply H; right; assumption]. Qed.
  Lemma last_first_nodes t : Permutation (last_first t) (nodes t).
  Proof.
    induction t as [v l IH] using tree_induction. cbn. constructor. rewrite last_first_rev. etransitivity; [|apply flat_map_perm_in, IH]. apply Permutation_flat_map. symmetry. apply Permutation_rev.
  Qed.
  Lemma last_first_sub s t : subtree s t -> exists l1 l2, last_first t = l1 ++ last_first s ++ l2.
  Proof.
    induction 1 as [t|s c v l I S (l1 & l2 & IH)]; [exists [], []; rewrite app_nil_r; reflexivity|]. cbn [last_first]. rewrite last_first_rev. apply in_rev in I. apply in_split in I. destruct I as (a & b & ->).
    rewrite flat_map_app. cbn [flat_map]. rewrite IH. exists (v :: flat_map last_first a ++ l1), (l2 ++ flat_map last_first b). cbn. rewrite <- !app_assoc. reflexivity.
  Qed.

  Lemma depths_ge t : forall d x, In x (depths d t) -> d <= snd x.
  Proof.
    induction t as [v l IH] using tree_induction. intros d x [<-|I]; [apply le_n|]. apply in_flat_map in I. destruct I as (c & Ic & I). apply (IH c Ic) in I. lia.
  Qed.
  Lemma depths_nodes t : forall d, map fst (depths d t) = nodes t.
  Proof.
    induction t as [v l IH] using tree_induction. intros d. cbn. f_equal. induction l as [|c l IHl]; [reflexivity|]. cbn. rewrite map_app, (IH c) by (left; reflexivity). f_equal. apply IHl. intros; apply IH; right; assumption.
  Qed.

  Definition queued (F : list (tree * nat)) : list (nat * nat) := flat_map (fun '(t, d) => depths d t) F.
  Lemma bfs_tree_spec n : forall F, size (map fst F) <= n -> (forall t d, In (t, d) F -> spans out_edges target t) ->
    StronglySorted le (map snd F) -> (forall t d F', F = (t, d) :: F' -> forall x, In x (map snd F) -> x <= S d) ->
    exists l, Permutation l (queued F) /\ StronglySorted le (map snd l) /\
    forall St (vis : event E -> St -> res St) fuel st, n <= fuel -> tree_loop out_edges vis (bfs_push target) fuel (map root (map fst F)) st = Some (calls vis (flat_map visit (map fst l)) st).
  Proof.
    induction n as [|n IH]; intros F L S SO NE.
    - destruct F as [|[[v l] d] F]; [|cbn [map fst] in L; rewrite size_cons in L; lia]. exists []. split; [constructor|]. split; [constructor|]. intros St vis [|fuel] st _; reflexivity.
    - destruct F as [|[[v l] d] F]; [exists []; split; [constructor|]; split; [constructor|]; intros St vis [|fuel] st _; reflexivity|].
      cbn [map fst] in L. rewrite size_cons in L.
      assert (SR : map target (out_edges v) = map root l) by (apply spans_root, (S _ d); left; reflexivity).
      assert (DF : forall x, In x (map snd F) -> d <= x /\ x <= Datatypes.S d).
      { intros x I. cbn [map snd] in SO. inversion SO as [|? ? SO1 SO2]; subst. split; [apply (proj1 (Forall_forall _ _) SO2), I|]. apply (NE (Node v l) d F eq_refl). right. exact I. }
      set (G := F ++ map (fun c => (c, Datatypes.S d)) l).
      assert (GF : map fst G = map fst F ++ l) by (unfold G; rewrite map_app, map_map; cbn; rewrite map_id; reflexivity).
      assert (GD : map snd G = map snd F ++ map (fun _ => Datatypes.S d) l) by (unfold G; rewrite map_app, map_map; reflexivity).
      destruct (IH G) as (l' & P1 & P2 & P3).
      + rewrite GF, size_app. lia.
      + intros t d' I. apply in_app_or in I. destruct I as [I|I]; [apply (S t d'); right; exact I|]. apply in_map_iff in I. destruct I as (c & [= <- <-] & I). apply (spans_child v l); [apply (S _ d); left; reflexivity|exact I].
      + rewrite GD. apply sorted_app.
        * cbn in SO. inversion SO; assumption.
        * apply (sorted_const _ (Datatypes.S d)). intros x I. apply in_map_iff in I. destruct I as (c & <- & _). reflexivity.
        * intros x y I J. apply in_map_iff in J. destruct J as (c & <- & _). apply DF, I.
      + intros t d' F' EQ x I. assert (LD : d <= d').
        { assert (J : In d' (map snd G)) by (rewrite EQ; left; reflexivity). rewrite GD in J. apply in_app_or in J. destruct J as [J|J]; [apply DF, J|]. apply in_map_iff in J. destruct J as (c & <- & _). lia. }
        rewrite GD in I. apply in_app_or in I. destruct I as [I|I]; [apply DF in I; lia|]. apply in_map_iff in I. destruct I as (c & <- & _). lia.
      + assert (QG : queued G = queued F ++ flat_map (depths (Datatypes.S d)) l).
        { unfold queued, G. rewrite flat_map_app. f_equal. clear. induction l as [|c l IH]; [reflexivity|]. cbn. f_equal. exact IH. }
        exists ((v, d) :: l'). split; [|split].
        * cbn. constructor. rewrite P1, QG. apply Permutation_app_comm.
        * cbn. constructor; [exact P2|]. apply Forall_forall. intros x I. apply in_map_iff in I. destruct I as (y & <- & I). apply (Permutation_in _ P1) in I. apply in_flat_map in I. destruct I as ((t & d') & It & I).
          apply depths_ge in I. assert (J : In d' (map snd G)) by (apply (in_map snd) in It; exact It). rewrite GD in J. apply in_app_or in J. destruct J as [J|J]; [apply DF in J; lia|]. apply in_map_iff in J. destruct J as (c & <- & _). lia.
        * intros St vis [|fuel] st LE; [lia|]. cbn [map fst root tree_loop]. rewrite calls_visit. destruct (calls vis ([Discover v] ++ map Examine (out_edges v) ++ [Finish v]) st) as [st1|x]; cbn [rbind]; [|reflexivity].
          rewrite bfs_push_eq, SR, <- map_app, <- GF. apply P3. lia.
  Qed.

  Lemma visit_discovered l : discovered (flat_map visit l) = l.
  Proof.
    induction l as [|u l IH]; [reflexivity|]. cbn [flat_map]. rewrite disc_app, IH. change (u :: l) with ([u] ++ l). f_equal.
    change (u :: discovered (map Examine (out_edges u) ++ [Finish u]) = [u]). rewrite disc_app. replace (discovered (map Examine (out_edges u))) with (@nil nat); [reflexivity|]. induction (out_edges u); [reflexivity|assumption].
  Qed.

  (** The visitor receives Start s, then, for each vertex in order, Discover, Examine for the out-edges in their order, and
      Finish. *)
  Theorem C70_dfs_tree t : spans out_edges target t -> exists order,
    (forall St (vis : event E -> St -> res St) fuel st, length (nodes t) <= fuel ->
       dfs_tree out_edges target vis fuel (root t) st = Some (calls vis (Start (root t) :: flat_map visit order) st)) /\
    Permutation order (nodes t) /\
    forall s, subtree s t -> exists l1 l l2, order = l1 ++ (root s :: l) ++ l2 /\ Permutation (root s :: l) (nodes s).
  Proof.
    intros S. exists (last_first t). split; [|split].
    - intros St vis fuel st L. unfold dfs_tree. cbn [calls]. destruct (vis (Start (root t)) st) as [st1|x]; cbn [rbind]; [|reflexivity].
      rewrite (dfs_loop_spec vis (size [t]) [t]); [cbn; rewrite app_nil_r; reflexivity|apply le_n|intros ? [<-|[]]; exact S|]. unfold size. cbn. rewrite app_nil_r. exact L.
    - apply last_first_nodes.
    - intros s X. destruct (last_first_sub s t X) as (l1 & l2 & E1). pose proof (last_first_nodes s) as P. destruct s as [v l]. cbn [last_first root] in *. eexists l1, _, l2. split; [exact E1|exact P].
  Qed.
  Theorem C70_bfs_tree t : spans out_edges target t -> exists order,
    (forall St (vis : event E -> St -> res St) fuel st, length (nodes t) <= fuel ->
       bfs_tree out_edges target vis fuel (root t) st = Some (calls vis (Start (root t) :: flat_map visit (map fst order)) st)) /\
    Permutation order (depths 0 t) /\ Permutation (map fst order) (nodes t) /\ StronglySorted le (map snd order).
  Proof.
    intros S. destruct (bfs_tree_spec (length (nodes t)) [(t, 0)]) as (l & P1 & P2 & P3).
    - unfold size. cbn. rewrite app_nil_r. apply le_n.
    - intros ? ? [[= <- <-]|[]]. exact S.
    - repeat constructor.
    - intros ? ? ? [= <- <- <-] x [<-|[]]. cbn. lia.
    - exists l. cbn in P1. rewrite app_nil_r in P1. split; [|split; [exact P1|split; [|exact P2]]].
      + intros St vis fuel st L. unfold bfs_tree. cbn [calls]. destruct (vis (Start (root t)) st) as [st1|x]; cbn [rbind]; [|reflexivity]. exact (P3 St vis fuel st1 L).
      + rewrite P1, depths_nodes. reflexivity.
  Qed.
  (** In particular each vertex is discovered once when the nodes of the tree are distinct. *)
  Theorem C70_once t : spans out_edges target t -> NoDup (nodes t) -> exists td tb,
    (forall St (vis : event E -> St -> res St) fuel st, length (nodes t) <= fuel ->
       dfs_tree out_edges target vis fuel (root t) st = Some (calls vis td st) /\ bfs_tree out_edges target vis fuel (root t) st = Some (calls vis tb st)) /\
    NoDup (discovered td) /\ NoDup (discovered tb) /\ (forall v, In v (discovered td) <-> In v (nodes t)) /\ (forall v, In v (discovered tb) <-> In v (nodes t)).
  Proof.
    intros S N. destruct (C70_dfs_tree t S) as (o1 & D1 & D2 & _), (C70_bfs_tree t S) as (o2 & B1 & _ & B2 & _).
    exists (Start (root t) :: flat_map visit o1), (Start (root t) :: flat_map visit (map fst o2)).
    split; [intros; split; [apply D1|apply B1]; assumption|].
    change (discovered (Start (root t) :: ?l)) with (discovered l). rewrite !visit_discovered.
    split; [eapply Permutation_NoDup; [symmetry; exact D2|exact N]|]. split; [eapply Permutation_NoDup; [symmetry; exact B2|exact N]|].
    split; intros v; split; apply Permutation_in; first [assumption|symmetry; assumption].
  Qed.
End T.

(** 0 -> 1, 0 -> 2, 1 -> 3, 1 -> 4, 2 -> 5 *)
Definition ex_tree_graph : graph := fst (run DG_call (G_init 6) [OpAddEdge 0 1; OpAddEdge 0 2; OpAddEdge 1 3; OpAddEdge 1 4; OpAddEdge 2 5]).
Definition ex_tree : tree := Node 0 [Node 1 [Node 3 []; Node 4 []]; Node 2 [Node 5 []]].
Example C70_example : spans (G_out_edges ex_tree_graph) target ex_tree /\ NoDup (nodes ex_tree) /\
  match dfs_tree (G_out_edges ex_tree_graph) target record_calls 6 0 [], bfs_tree (G_out_edges ex_tree_graph) target record_calls 6 0 [] with
  | Some (Ok td), Some (Ok tb) => (discovered td, discovered tb) = ([0; 2; 5; 1; 4; 3], [0; 1; 2; 3; 4; 5])
  | _, _ => False
  end.
Proof.
  split; [|split].
  - intros s S. repeat (inversion S as [t|s0 c v l I S']; subst; clear S; [reflexivity|]; rename S' into S; cbn in I; repeat (destruct I as [<-|I]); try contradiction); try contradiction.
  - repeat constructor; cbn; intuition discriminate.
  - vm_compute. reflexivity.
Qed.
Print Assumptions C70_dfs_tree.
Print Assumptions C70_bfs_tree.
Print Assumptions C70_once.
