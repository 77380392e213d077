(** Theorems C104 (GraphvizStyle) and C105 (Singleton). *)
From Coq Require Import String.
From Verif Require Import Str Graph GraphSpec Graphviz GraphvizSpec GraphvizProofs2 GraphvizProofs3 TGraphviz GraphDp TGraphDp GvStyle GvStyleSpec.
From Verif Require Import Base BaseProofs.
Open Scope string_scope.
Open Scope nat_scope.
Open Scope list_scope.

(** ** C104 *)
Lemma style_run_snoc ops op : style_run (ops ++ [op]) = style_step (style_run ops) op.
Proof. unfold style_run. rewrite fold_left_app. reflexivity. Qed.
Lemma style_state ops : fst (style_run ops) =
  mkStyle (graph_attrs (fg_of ops) (bg_of ops)) (node_attrs (fg_of ops)) (edge_attrs (fg_of ops)) (extras_of ops).
Proof.
  induction ops as [|op ops IH] using rev_ind; [reflexivity|]. rewrite style_run_snoc. unfold fg_of, bg_of, extras_of. rewrite !fold_left_app, flat_map_app.
  fold (fg_of ops) (bg_of ops) (extras_of ops). destruct (style_run ops) as [s ds]. cbn [fst] in IH. subst s. destruct op; cbn [flat_map]; rewrite ?app_nil_r; reflexivity.
Qed.

(** After any history of calls, the default style is the text of the last two colors and of the strings appended to extra_style. *)
Lemma join_more (sep : str) a l : join sep (a :: l) = a ++ flat_map (fun x => sep ++ x) l.
Proof.
  revert a. induction l as [|b l IH]; intros a; [cbn; rewrite app_nil_r; reflexivity|].
  change (join sep (a :: b :: l)) with (a ++ sep ++ join sep (b :: l)). rewrite IH. cbn [flat_map]. rewrite !app_assoc. reflexivity.
Qed.
Theorem C104_style ops : style_str (fst (style_run ops)) = full_text ops.
Proof.
  rewrite style_state. unfold style_str, full_text, style_text. cbn [st_graph st_node st_edge st_extra app graph_attrs node_attrs edge_attrs].
  rewrite join_more. cbn [flat_map]. generalize (flat_map (fun x => lit "; " ++ x) (extras_of ops)). intros E.
  unfold graphviz_dx_to_dot, graph_attrs, node_attrs, edge_attrs. cbn [map join].
  assert (A : forall a b c : str, (a ++ b) ++ c = a ++ b ++ c) by (intros; symmetry; apply app_assoc).
  repeat rewrite A.
  generalize (fg_of ops) (bg_of ops). intros fg bg.
  reflexivity.
Qed.
Print Assumptions C104_style.

(** A GraphDp copies the style of the moment of its creation; the later changes do not reach it. *)
Theorem C104_dp_frozen ops dg dv de ops' : exists before after, snd (style_run (ops ++ NewDp dg dv de :: ops')) =
  before ++ mkGraphDp [] [] (or_default dg (graph_attrs (fg_of ops) (bg_of ops))) (or_default dv (node_attrs (fg_of ops)))
              (or_default de (edge_attrs (fg_of ops))) (extras_of ops) :: after /\
  length before = length (filter (fun op => match op with NewDp _ _ _ => true | _ => false end) ops).
Proof.
  exists (snd (style_run ops)).
  assert (L : length (snd (style_run ops)) = length (filter (fun op => match op with NewDp _ _ _ => true | _ => false end) ops)).
  { induction ops as [|op ops IH] using rev_ind; [reflexivity|]. rewrite style_run_snoc, filter_app, app_length, <- IH.
    destruct (style_run ops) as [s ds]. destruct op; cbn [style_step snd filter length]; [lia|lia|lia|]. rewrite app_length. reflexivity. }
  assert (X : exists after, snd (style_run (ops ++ NewDp dg dv de :: ops')) = snd (style_run (ops ++ [NewDp dg dv de])) ++ after).
  { clear L. induction ops' as [|op ops' IH] using rev_ind; [exists []; rewrite app_nil_r; reflexivity|]. destruct IH as (after & IH).
    rewrite app_comm_cons, app_assoc, style_run_snoc. destruct (style_run (ops ++ NewDp dg dv de :: ops')) as [s ds]. cbn [snd] in IH. subst ds.
    destruct op; cbn [style_step snd]; [exists after; reflexivity|exists after; reflexivity|exists after; reflexivity|]. eexists. rewrite <- app_assoc. reflexivity. }
  destruct X as (after & X). exists after. split; [|exact L]. rewrite X, style_run_snoc. pose proof (style_state ops) as S. destruct (style_run ops) as [s ds].
  cbn [fst] in S. subst s. cbn [style_step snd]. rewrite <- app_assoc. unfold GraphDp_init_in. cbn [st_graph st_node st_edge st_extra or_default]. reflexivity.
Qed.
Print Assumptions C104_dp_frozen.
(** A GraphDp created once a string has been appended to extra_style cannot be exported: to_dot raises, whatever its arguments (see C94_raises). *)
Theorem C104_extra_dp ops dg dv de tags directed vertices edges k : extras_of ops <> [] ->
  exists before d, snd (style_run (ops ++ [NewDp dg dv de])) = before ++ [d] /\ GraphDp_to_dot tags directed vertices edges d k = Raise AttributeError.
Proof.
  intros N. pose proof (style_state ops) as S. rewrite style_run_snoc. destruct (style_run ops) as [s ds]. cbn [fst] in S. subst s. cbn [style_step snd].
  eexists ds, _. split; [reflexivity|]. apply C94_raises. right. exact N.
Qed.
Print Assumptions C104_extra_dp.

(** The text of a graph starts with the text of the last two colors and the appended strings, unless another style is given. *)
Lemma to_dot_initial {D} tags directed vs es (o : dot_args_of D) : to_dot_in style0 tags directed vs es o = to_dot tags directed vs es o.
Proof. unfold to_dot_in, to_dot. cbn [Graphviz.dg extra_style dv de dpv dpe graphviz_style]. destruct (graphviz_style o); reflexivity. Qed.

Definition styled (s : str) (o : dot_args) : dot_args :=
  DotArgs (dg o) (extra_style o) (dv o) (de o) (dpv o) (dpe o) (Some (match graphviz_style o with Some x => x | None => s end)).
Theorem C104_to_dot ops tags directed vs es (o : dot_args) :
  to_dot_in (fst (style_run ops)) tags directed vs es o = to_dot tags directed vs es (styled (full_text ops) o).
Proof. unfold to_dot_in. rewrite C104_style. reflexivity. Qed.
Print Assumptions C104_to_dot.

Lemma fg_one_line ops : (forall c, In c (colors_set ops) -> one_line c) -> one_line (fg_of ops) /\ one_line (bg_of ops).
Proof.
  induction ops as [|op ops IH] using rev_ind; [intros _; split; apply one_line_lit; reflexivity|].
  intros A. unfold colors_set in A. rewrite flat_map_app in A. fold (colors_set ops) in A. unfold fg_of, bg_of. rewrite !fold_left_app. fold (fg_of ops) (bg_of ops).
  destruct IH as (F & B); [intros c I; apply A, in_or_app; left; exact I|]. destruct op; cbn [fold_left]; (split; [try assumption|try assumption]).
  - apply A, in_or_app. right. left. reflexivity.
  - apply A, in_or_app. right. left. reflexivity.
Qed.
Lemma style_text_ok fg bg : one_line fg -> one_line bg -> style_ok (style_text fg bg).
Proof.
  intros F B. split.
  - unfold style_text. repeat (apply one_line_app; split); try assumption; try (apply one_line_lit; reflexivity).
  - intros [|w ws] c r E SP NS; [change (ch "g" :: tl (style_text fg bg) = c :: r) in E; injection E as <- _; vm_compute; intuition discriminate|].
    change (ch "g" :: tl (style_text fg bg) = w :: ws ++ c :: r) in E. injection E as <- _. exfalso.
    inversion SP as [|? ? X _]. discriminate X.
Qed.

Lemma full_text_ok ops : (forall c, In c (colors_set ops ++ extras_of ops) -> one_line c) -> style_ok (full_text ops).
Proof.
  intros A. destruct (fg_one_line ops) as (F & B); [intros c I; apply A, in_or_app; left; exact I|].
  destruct (style_text_ok _ _ F B) as (O & K). unfold full_text. split.
  - apply one_line_app. split; [exact O|]. assert (E : forall x, In x (extras_of ops) -> one_line x) by (intros x I; apply A, in_or_app; right; exact I).
    clear A. induction (extras_of ops) as [|x l IH]; [apply one_line_lit; reflexivity|]. cbn [flat_map]. apply one_line_app. split; [apply one_line_app; split; [apply one_line_lit; reflexivity|apply E; left; reflexivity]|].
    apply IH. intros; apply E; right; assumption.
  - intros [|w ws] c r E SP NS; [change (ch "g" :: tl (style_text (fg_of ops) (bg_of ops)) ++ flat_map (fun x => lit "; " ++ x) (extras_of ops) = c :: r) in E; injection E as <- _; vm_compute; intuition discriminate|].
    change (ch "g" :: tl (style_text (fg_of ops) (bg_of ops)) ++ flat_map (fun x => lit "; " ++ x) (extras_of ops) = w :: ws ++ c :: r) in E. injection E as <- _. exfalso.
    inversion SP as [|? ? X _]. discriminate X.
Qed.

(** The text of a directed graph is read back whatever the colors and the appended strings, provided that they stay on one line. *)
Theorem C104_round_trip_partial ops tags n gops o : let g := fst (run DG_call (G_init n) gops) in
  (forall c, In c (colors_set ops ++ extras_of ops) -> one_line c) ->
  Permutation tags GRAPHVIZ_SUPPORTED_HTML_TAGS -> (forall e, In e (G_edges g) -> In (target e) (G_vertices g)) ->
  args_ok (G_vertices g) (G_edges g) o ->
  exists g', read_graphviz G_add_edge (to_dot_in (fst (style_run ops)) tags true (G_vertices g) (G_edges g) o) (G_init 0) = (g', Ok tt) /\
    exists f, renamed f (G_vertices g) (G_edges g) (G_vertices g') (G_edges g').
Proof.
  intros g CO P C A. rewrite C104_to_dot. apply (C62_directed_partial tags n gops _ P C). destruct A as (A1 & A2).
  split; [|exact A2]. unfold styled. cbn [graphviz_style]. destruct (graphviz_style o); [exact A1|].
  apply full_text_ok. exact CO.
Qed.
Print Assumptions C104_round_trip_partial.

(** A color on several lines adds a vertex: the text of the empty graph is read as a graph with one vertex. *)
Theorem C104_two_lines_refuted : exists ops g', 
  read_graphviz G_add_edge (to_dot_in (fst (style_run ops)) GRAPHVIZ_SUPPORTED_HTML_TAGS true [] [] no_args) (G_init 0) = (g', Ok tt) /\
  G_vertices g' = [0].
Proof.
  exists [SetFg (lit "red"); SetBg ([10%N] ++ lit "7 ;" ++ [10%N])]. eexists. split; vm_compute; reflexivity.
Qed.
Print Assumptions C104_two_lines_refuted.

Definition ex_ops : list style_op :=
  [SetFg (lit "red"); NewDp None (Some [(lit "shape", lit "box")]) None; SetBg (lit "grey"); AddExtra (lit "splines=true"); SetFg (lit "#00ff00"); NewDp (Some []) None None; SetBg (lit "white")].
Example C104_example : style_str (fst (style_run ex_ops)) =
    lit "graph [fontcolor=""#00ff00""; bgcolor=""white""; rankdir=""LR""]; node [color=""#00ff00""; fontcolor=""#00ff00""; fillcolor=""transparent""; shape=""circle""]; edge [color=""#00ff00""; fontcolor=""#00ff00""]; splines=true" /\
  map gdp_dg (snd (style_run ex_ops)) = [graph_attrs (lit "red") (lit "transparent"); graph_attrs (lit "#00ff00") (lit "grey")] /\
  map gdp_dv (snd (style_run ex_ops)) = [[(lit "shape", lit "box")]; node_attrs (lit "#00ff00")] /\
  map gdp_extra_style (snd (style_run ex_ops)) = [[]; [lit "splines=true"]] /\
  (forall c, In c (colors_set ex_ops ++ extras_of ex_ops) -> one_line c).
Proof.
  split; [vm_compute; reflexivity|]. split; [vm_compute; reflexivity|]. split; [vm_compute; reflexivity|]. split; [vm_compute; reflexivity|].
  intros c I. cbn in I. repeat destruct I as [<-|I]; try contradiction; apply one_line_lit; reflexivity.
Qed.
Example C104_extra_example : extras_of ex_ops <> [] /\
  map (fun d => GraphDp_to_dot GRAPHVIZ_SUPPORTED_HTML_TAGS true [0] [] d (mkKwargs None None Absent Absent Absent Absent Absent Absent None)) (skipn 1 (snd (style_run ex_ops))) = [Raise AttributeError].
Proof. split; [discriminate|vm_compute; reflexivity]. Qed.
Example C104_trip_example : exists g', read_graphviz G_add_edge (to_dot_in (fst (style_run ex_ops)) GRAPHVIZ_SUPPORTED_HTML_TAGS true (G_vertices ex_g) (G_edges ex_g) no_args) (G_init 0) = (g', Ok tt) /\
  exists f, renamed f (G_vertices ex_g) (G_edges ex_g) (G_vertices g') (G_edges g').
Proof. apply C104_round_trip_partial; [apply C104_example|apply Permutation_refl|apply C62_example_edges|apply no_args_ok]. Qed.

(** ** C105 *)
Section C105.
  Context {Cls Args : Type} `{EqDec Cls}.
  Variable construct : Cls -> Args -> option exn.
  Notation run := (sing_run construct).

  Lemma first_made_app i calls c a cls : first_made construct i (calls ++ [(c, a)]) cls =
    match first_made construct i calls cls with
    | Some x => Some x
    | None => if eqb c cls then match construct c a with None => Some (i + length calls, a) | Some _ => None end else None
    end.
  Proof.
    revert i. induction calls as [|[c' a'] calls IH]; intros i; cbn [app first_made length].
    - rewrite Nat.add_0_r. reflexivity.
    - rewrite !IH, <- !plus_n_Sm. cbn [plus]. destruct (eqb c' cls); [destruct (construct c' a'); reflexivity|reflexivity].
  Qed.
  Lemma run_app s l l' : run s (l ++ l') = let '(s1, r1) := run s l in let '(s2, r2) := run s1 l' in (s2, r1 ++ r2).
  Proof.
    revert s. induction l as [|[c a] l IH]; intros s; cbn [app sing_run].
    - destruct (run s l'); reflexivity.
    - destruct (sing_call construct s c a) as [s1 r]. rewrite IH. destruct (run s1 l) as [s2 r2]. destruct (run s2 l'). reflexivity.
  Qed.
  (** What the table of the instances contains after a history *)
  Definition made (calls : list (Cls * Args)) (cls : Cls) : option (obj Cls Args) :=
    match first_made construct 0 calls cls with Some (j, a) => Some (Obj cls a j) | None => None end.
  Lemma sing_state calls : clock (fst (run (Sing [] 0) calls)) = length calls /\
    (forall cls, dget (s_instances (fst (run (Sing [] 0) calls))) cls = made calls cls) /\
    length (snd (run (Sing [] 0) calls)) = length calls.
  Proof.
    induction calls as [|[c a] calls IH] using rev_ind; [repeat split|]. rewrite run_app. destruct (run (Sing [] 0) calls) as [s rs].
    cbn [fst snd] in IH. destruct IH as (C & D & L). cbn [sing_run]. unfold sing_call. rewrite (D c).
    assert (M : forall cls, made (calls ++ [(c, a)]) cls = match made calls cls with Some x => Some x | None => if eqb c cls then match construct c a with None => Some (Obj cls a (length calls)) | Some _ => None end else None end).
    { intros cls. unfold made. rewrite first_made_app. destruct (first_made construct 0 calls cls) as [[j b]|]; [reflexivity|]. destruct (eqb c cls); [destruct (construct c a); reflexivity|reflexivity]. }
    destruct (made calls c) as [o|] eqn:E; [|destruct (construct c a) as [ex|] eqn:E2]; cbn [fst snd s_instances clock]; rewrite ?app_length, ?C, ?L; cbn [length];
      (split; [lia|split; [|reflexivity]]); intros cls; rewrite M.
    - rewrite D. destruct (made calls cls) eqn:F; [reflexivity|]. destruct (BaseProofs.eqb_spec c cls) as [<-|]; [congruence|reflexivity].
    - rewrite D. destruct (made calls cls) eqn:F; [reflexivity|]. destruct (eqb c cls); reflexivity.
    - rewrite dget_dset, D. destruct (BaseProofs.eqb_spec cls c) as [->|N]; [rewrite E, eqb_refl; reflexivity|].
      destruct (made calls cls) eqn:F; [reflexivity|]. destruct (BaseProofs.eqb_spec c cls) as [<-|]; [congruence|reflexivity].
  Qed.
End C105.

(** Each call of a class returns the object made by the first call of this class whose constructor did not raise, with
    the arguments of that call; before it, the exceptions of the constructor come out. *)
Theorem C105_singleton {Cls Args} `{EqDec Cls} (construct : Cls -> Args -> option exn) calls i cls args :
  nth_error calls i = Some (cls, args) ->
  match first_made construct 0 (firstn (S i) calls) cls with
  | Some (j, a) => nth_error (snd (sing_run construct (Sing [] 0) calls)) i = Some (Ok (Obj cls a j))
  | None => exists ex, construct cls args = Some ex /\ nth_error (snd (sing_run construct (Sing [] 0) calls)) i = Some (Raise ex)
  end.
Proof.
  intros N. destruct (nth_error_split calls i N) as (l & l' & -> & <-). replace (S (length l)) with (length (l ++ [(cls, args)])) by (rewrite app_length; cbn; lia).
  replace (l ++ (cls, args) :: l') with ((l ++ [(cls, args)]) ++ l') by (rewrite <- app_assoc; reflexivity).
  rewrite firstn_app, Nat.sub_diag, firstn_all. cbn [firstn]. rewrite app_nil_r, run_app, run_app.
  destruct (sing_state construct l) as (C & D & L). destruct (sing_run construct (Sing [] 0) l) as [s rs]. cbn [fst snd] in *.
  rewrite first_made_app, eqb_refl. cbn [sing_run]. unfold sing_call. rewrite (D cls), C. unfold made.
  destruct (first_made construct 0 l cls) as [[j a]|]; [|destruct (construct cls args) as [ex|]]; cbn [snd fst].
  1,3: destruct (sing_run construct _ l') as [s2 r2]; cbn [snd]; rewrite <- app_assoc, nth_error_app2, L, Nat.sub_diag by lia; reflexivity.
  exists ex. split; [reflexivity|]. destruct (sing_run construct _ l') as [s2 r2]; cbn [snd]; rewrite <- app_assoc, nth_error_app2, L, Nat.sub_diag by lia; reflexivity.
Qed.
Print Assumptions C105_singleton.

Lemma first_made_firstn {Cls Args} `{EqDec Cls} (construct : Cls -> Args -> option exn) calls cls n m k x :
  n <= m -> first_made construct k (firstn n calls) cls = Some x -> first_made construct k (firstn m calls) cls = Some x.
Proof.
  revert n m k. induction calls as [|[c a] calls IH]; intros n m k L E; [destruct n; discriminate E|].
  destruct n as [|n]; [discriminate E|]. destruct m as [|m]; [lia|]. cbn [firstn first_made] in *. destruct (eqb c cls); [destruct (construct c a); [|exact E]|]; apply (IH n m); (lia || exact E).
Qed.

(** Two calls give the same object exactly when they are calls of the same class. *)
Theorem C105_same_object {Cls Args} `{EqDec Cls} (construct : Cls -> Args -> option exn) calls i i' cls cls' args args' o o' :
  nth_error calls i = Some (cls, args) -> nth_error calls i' = Some (cls', args') ->
  nth_error (snd (sing_run construct (Sing [] 0) calls)) i = Some (Ok o) ->
  nth_error (snd (sing_run construct (Sing [] 0) calls)) i' = Some (Ok o') ->
  (o = o' <-> cls = cls') /\ (obj_time o = obj_time o' <-> cls = cls').
Proof.
  intros N N' R R'. pose proof (C105_singleton construct _ _ _ _ N) as X. pose proof (C105_singleton construct _ _ _ _ N') as X'.
  destruct (first_made construct 0 (firstn (S i) calls) cls) as [[j a]|] eqn:F; [|destruct X as (ex & _ & X); congruence].
  destruct (first_made construct 0 (firstn (S i') calls) cls') as [[j' a']|] eqn:F'; [|destruct X' as (ex & _ & X'); congruence].
  assert (o = Obj cls a j) by congruence. assert (o' = Obj cls' a' j') by congruence. subst o o'. cbn [obj_time].
  assert (T : cls = cls' -> (j, a) = (j', a')).
  { intros <-. apply (first_made_firstn construct calls cls _ (S i + S i')) in F; [|lia]. apply (first_made_firstn construct calls cls _ (S i + S i')) in F'; [|lia]. congruence. }
  assert (W : forall l cls k j a, first_made construct k l cls = Some (j, a) -> k <= j /\ nth_error l (j - k) = Some (cls, a)).
  { clear. intros l cls. induction l as [|[c b] l IH]; intros k j a E; [discriminate E|]. cbn [first_made] in E.
    destruct (BaseProofs.eqb_spec c cls) as [->|]; [destruct (construct cls b)|].
    2: injection E as <- <-; rewrite Nat.sub_diag; split; [lia|reflexivity].
    all: apply IH in E; destruct E as (L & E); split; [lia|]; replace (j - k) with (S (j - S k)) by lia; exact E. }
  assert (U : j = j' -> cls = cls').
  { intros <-. apply W in F. apply W in F'. destruct F as (_ & F). destruct F' as (_ & F').
    assert (G : forall n (l : list (Cls * Args)) k x, nth_error (firstn n l) k = Some x -> nth_error l k = Some x).
    { clear. intros n. induction n as [|n IH]; intros l k x E; [destruct k; discriminate E|]. destruct l as [|y l]; [destruct k; discriminate E|]. destruct k as [|k]; [exact E|]. apply (IH l k x E). }
    apply G in F. apply G in F'. congruence. }
  split; split; intros E.
  - injection E as E _ _. exact E.
  - specialize (T E). congruence.
  - apply U, E.
  - specialize (T E). congruence.
Qed.
Print Assumptions C105_same_object.

Definition c105_new (cls args : nat) : option exn := if args <? 5 then Some ValueError else None.
Definition c105_calls := [(1, 7); (2, 3); (1, 8); (2, 9); (1, 2); (2, 10)].
Example C105_example : snd (sing_run c105_new (Sing [] 0) c105_calls) =
  [Ok (Obj 1 7 0); Raise ValueError; Ok (Obj 1 7 0); Ok (Obj 2 9 3); Ok (Obj 1 7 0); Ok (Obj 2 9 3)].
Proof. vm_compute. reflexivity. Qed.
