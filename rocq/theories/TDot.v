(** Theorem C98: to_dot writes DOT. *)
From Coq Require Import String Lia.
From Verif Require Import Str Graph Graphviz GraphvizSpec GraphvizProofs GraphvizProofs2 DotSpec DotProofs DotProofs2.
From Verif Require Import Base BaseProofs.
Open Scope string_scope.
Open Scope nat_scope.
Open Scope list_scope.

(** The names and the values given to to_dot *)
Definition values_dot {X} (d : list (str * (X -> option str))) (l : list X) : Prop := forall k p x v, In (k, p) d -> In x l -> p x = Some v ->
  dot_key k /\ (k = lit "label" -> dot_label v) /\ (k <> lit "label" -> dot_value v).
Definition defaults_dot (l : list (str * str)) : Prop := forall k v, In (k, v) l -> dot_key k /\ dot_value v.
(** [st]: the statements of the style, [ex]: the extra statements *)
Definition args_dot {D} (directed : bool) (V : list nat) (E : list (edge D)) (o : dot_args_of D) (st ex : list statement) : Prop :=
  match graphviz_style o with None => st = pybgl_style | Some s => optional_style directed s st end /\ optional_style directed (extra_style o) ex /\
  defaults_dot (dg o) /\ defaults_dot (dv o) /\ defaults_dot (de o) /\ values_dot (dpv o) V /\ values_dot (dpe o) E.

Definition describes_vertex {D} (o : dot_args_of D) (u : nat) (s : statement) : Prop :=
  exists i a, s = SNode i a /\ numbered i = Some u /\ attributes_of u (dpv o) a.
Definition describes_edge {D} (o : dot_args_of D) (e : edge D) (s : statement) : Prop :=
  exists i j a, s = SEdge i j a /\ numbered i = Some (source e) /\ numbered j = Some (target e) /\ attributes_of e (dpe o) a.

Lemma truthy_writes d s ss : optional_style d s ss -> exists sss, Forall2 (writes d) (if_truthy s) sss /\ concat sss = ss.
Proof.
  intros [[-> ->]|H]; [exists []; split; [constructor|reflexivity]|]. destruct s as [|c s].
  - exfalso. unfold dot_style in H. destruct d; discriminate H.
  - exists [ss]. split; [|cbn; apply app_nil_r]. constructor; [now apply style_writes|constructor].
Qed.
Lemma dx_truthy d k l : defaults_dot l -> exists sss, Forall2 (writes d) (if_truthy (graphviz_dx_to_dot (kind_word k) l)) sss /\ concat sss = default_statements k l.
Proof.
  intros P. destruct l as [|x l]; [exists []; split; [constructor|reflexivity]|].
  exists [default_statements k (x :: l)]. split; [|cbn; reflexivity].
  replace (if_truthy _) with [graphviz_dx_to_dot (kind_word k) (x :: l)] by (destruct k; reflexivity). constructor; [|constructor].
  apply dx_writes; [exact P|discriminate].
Qed.
Lemma default_style_read d : dot_style d default_graphviz_style pybgl_style.
Proof. destruct d; vm_compute; reflexivity. Qed.

(** C98 (partial): with names that need no quotes, values without quote nor ambiguous backslash, labels without "<" inside
    a tag, and styles that are statements, the text is DOT: after the styles, one statement for each vertex and for each
    edge, in order, with their numbers and their attributes. *)
Theorem C98_dot_partial {D} tags directed vs (es : list (edge D)) (o : dot_args_of D) st ex : Permutation tags GRAPHVIZ_SUPPORTED_HTML_TAGS -> args_dot directed vs es o st ex ->
  exists nodes edges, Forall2 (describes_vertex o) vs nodes /\ Forall2 (describes_edge o) es edges /\
  dot_read (to_dot tags directed vs es o) = Some (Dot directed (Some (Name (lit "G")))
    (st ++ default_statements KGraph (dg o) ++ default_statements KNode (dv o) ++ default_statements KEdge (de o) ++ ex ++ nodes ++ edges)).
Proof.
  intros T (S & X & G & N & E & PV & PE).
  assert (S1 : exists sss, Forall2 (writes directed) (if_truthy (match graphviz_style o with None => default_graphviz_style | Some s => s end)) sss /\ concat sss = st).
  { destruct (graphviz_style o) as [s|]; [now apply truthy_writes|]. subst st. apply truthy_writes. right. apply default_style_read. }
  destruct S1 as (s1 & F1 & <-). destruct (dx_truthy directed KGraph _ G) as (s2 & F2 & <-). destruct (dx_truthy directed KNode _ N) as (s3 & F3 & <-).
  destruct (dx_truthy directed KEdge _ E) as (s4 & F4 & <-). destruct (truthy_writes directed _ _ X) as (s5 & F5 & <-).
  assert (V : exists nodes, Forall2 (describes_vertex o) vs nodes /\ Forall2 (writes directed) (map (fun u => vertex_to_graphviz tags u (dpv o)) vs) (map (fun s => [s]) nodes)).
  { clear -T PV. induction vs as [|u vs IH]; [exists []; split; constructor|]. destruct IH as (nodes & A & B).
    { intros k p x v I J. apply PV; [exact I|now right]. }
    destruct (vertex_writes tags T directed u (dpv o)) as (a & W & O). { intros k p v I Q. apply (PV k p u v I); [now left|exact Q]. }
    exists (SNode (Name (str_nat u)) a :: nodes). split; cbn [map]; constructor; try assumption. exists (Name (str_nat u)), a. repeat split; [apply numbered_nat|exact O]. }
  destruct V as (nodes & FV & F6).
  assert (K : exists edges, Forall2 (describes_edge o) es edges /\ Forall2 (writes directed) (map (fun e => edge_to_graphviz tags directed e (dpe o)) es) (map (fun s => [s]) edges)).
  { clear -T PE. induction es as [|e es IH]; [exists []; split; constructor|]. destruct IH as (edges & A & B).
    { intros k p x v I J. apply PE; [exact I|now right]. }
    destruct (edge_writes tags T directed e (dpe o)) as (a & W & O). { intros k p v I Q. apply (PE k p e v I); [now left|exact Q]. }
    exists (SEdge (Name (str_nat (source e))) (Name (str_nat (target e))) a :: edges). split; cbn [map]; constructor; try assumption.
    eexists _, _, a. split; [reflexivity|]. split; [apply numbered_nat|]. split; [apply numbered_nat|exact O]. }
  destruct K as (edges & FE & F7). exists nodes, edges. split; [exact FV|]. split; [exact FE|].
  assert (C : forall l : list statement, concat (map (fun s => [s]) l) = l) by (induction l as [|s l IH]; cbn; [reflexivity|now rewrite IH]).
  rewrite <- (C nodes), <- (C edges), <- !concat_app. unfold to_dot. cbv zeta.
  match goal with |- dot_read (_ ++ _ ++ match ?i with _ => _ end ++ _) = _ => change (dot_read (graphviz_type directed ++ lit " G {" ++ body_of i ++ lit "}") = Some (Dot directed (Some (Name (lit "G")))
    (concat (s1 ++ s2 ++ s3 ++ s4 ++ s5 ++ map (fun s => [s]) nodes ++ map (fun s => [s]) edges)))) end.
  apply instructions_read. repeat apply Forall2_app; assumption.
Qed.


(** ** A simple condition on labels: a ">" between two "<" *)
Fixpoint scan (inside : bool) (s : str) : bool :=
  match s with
  | [] => true
  | c :: s' => if eqb c (ch "<") then negb inside && scan true s' else if eqb c (ch ">") then scan false s' else scan inside s'
  end.
Lemma scan_app p r : forall i, scan i (p ++ r) = true -> exists j, scan j r = true.
Proof.
  induction p as [|c p IH]; cbn [scan app]; intros i H; [now exists i|]. destruct (eqb c (ch "<")); [|destruct (eqb c (ch ">")); exact (IH _ H)].
  apply andb_true_iff in H as [_ H]. exact (IH _ H).
Qed.
Lemma scan_inside u r : ~ In (ch ">") u -> In (ch "<") u -> scan true (u ++ r) = false.
Proof.
  induction u as [|c u IH]; [intros _ []|]. intros N I. cbn [scan app]. destruct (BaseProofs.eqb_spec c (ch "<")); [reflexivity|].
  destruct (BaseProofs.eqb_spec c (ch ">")) as [->|]; [exfalso; apply N; now left|]. apply IH; [intros J; apply N; now right|destruct I; [congruence|assumption]].
Qed.
Lemma piece_inside v l t : escapes v l -> In (true, t) l -> html_tag t /\ exists p q, v = p ++ t ++ q.
Proof.
  induction 1 as [|t' s l T E IH|c s l N S E IH|c s l S E IH]; intros I; [destruct I|..]; destruct I as [I|I]; try discriminate I.
  - injection I as ->. split; [exact T|]. now exists [], s.
  - destruct (IH I) as (H & p & q & ->). split; [exact H|]. exists (t' ++ p), q. now rewrite <- app_assoc.
  - destruct (IH I) as (H & p & q & ->). split; [exact H|]. now exists (c :: p), q.
  - destruct (IH I) as (H & p & q & ->). split; [exact H|]. now exists (c :: p), q.
Qed.
Lemma label_scan v : scan false v = true -> dot_label v.
Proof.
  intros H l t E I. destruct (piece_inside v l t E I) as (T & p & q & ->). destruct (scan_app _ _ _ H) as (j & Hj). clear H.
  destruct (html_tag_gt t T) as (u & -> & G). destruct (html_tag_lt _ T) as [w Ew]. destruct u as [|x u]; [injection Ew as Ew _; discriminate Ew|].
  cbn [app] in *. injection Ew as -> _. cbn [tl]. rewrite in_app_iff. intros [J|[J|[]]]; [|discriminate J].
  cbn [scan] in Hj. rewrite eqb_refl in Hj. apply andb_true_iff in Hj as [_ Hj].
  rewrite <- app_assoc, scan_inside in Hj; [discriminate|intros K; apply G; now right|exact J].
Qed.

(** A graph with two vertices and an edge, labels with markup and special characters, a graph attribute, an extra style. *)
Definition c98_args : dot_args := {|
  dg := [(lit "rankdir", lit "TB")]; extra_style := lit "splines=true"; dv := []; de := [(lit "arrowhead", lit "vee")];
  dpv := [(lit "label", fun u => if u =? 0 then Some (lit "<b>a</b> & <") else Some (lit "x[1]")); (lit "color", fun u => if u =? 0 then None else Some (lit "red"))];
  dpe := [(lit "xlabel", fun _ => Some (lit "1\n2"))]; graphviz_style := Some [] |}.
Lemma key_check k : match k with c :: s => dot_letter c && forallb dot_alnum s && negb (keyword k) | [] => false end = true -> dot_key k.
Proof.
  destruct k as [|c s]; [discriminate|]. intros H. apply andb_true_iff in H as [H K]. apply andb_true_iff in H as [A B]. exists c, s.
  repeat split; try assumption. now apply negb_true_iff.
Qed.
Lemma value_check v : forallb (fun c => negb (eqb c (ch """")) && negb (eqb c (ch "\"))) v = true -> dot_value v.
Proof.
  induction v as [|c v IH]; cbn [forallb]; intros H; [constructor|]. apply andb_true_iff in H as [H K]. apply andb_true_iff in H as [A B].
  apply negb_true_iff in A, B. apply eqb_neq in A, B. apply dv_char; auto.
Qed.
Definition c98_edge : gedge := Edge 0 12 0.
Lemma c98_ok : args_dot true [0; 12] [c98_edge] c98_args [] [SSet (Name (lit "splines")) (Name (lit "true"))].
Proof.
  unfold args_dot. cbn [c98_args graphviz_style extra_style dg dv de dpv dpe]. split; [now left|]. split; [right; vm_compute; reflexivity|].
  split; [|split; [|split; [|split]]].
  - intros k v [I|[]]. injection I as <- <-. split; [apply key_check; reflexivity|apply value_check; reflexivity].
  - intros k v [].
  - intros k v [I|[]]. injection I as <- <-. split; [apply key_check; reflexivity|apply value_check; reflexivity].
  - intros k p x v [I|[I|[]]] J; injection I as <- <-; intros E.
    + split; [apply key_check; reflexivity|]. split; [|congruence]. intros _. apply label_scan.
      destruct J as [<-|[<-|[]]]; cbn in E; injection E as <-; reflexivity.
    + split; [apply key_check; reflexivity|]. split; [discriminate|]. intros _. apply value_check.
      destruct J as [<-|[<-|[]]]; cbn in E; [discriminate|injection E as <-; reflexivity].
  - intros k p x v [I|[]] J; injection I as <- <-. intros E. injection E as <-. split; [apply key_check; reflexivity|]. split; [discriminate|].
    intros _. apply dv_char; [discriminate..|]. apply dv_back; [discriminate..|]. apply dv_char; [discriminate..|constructor].
Qed.
Example c98_case : exists nodes edges,
  Forall2 (describes_vertex c98_args) [0; 12] nodes /\ Forall2 (describes_edge c98_args) [c98_edge] edges /\
  dot_read (to_dot GRAPHVIZ_SUPPORTED_HTML_TAGS true [0; 12] [c98_edge] c98_args) = Some (Dot true (Some (Name (lit "G")))
    ([SDefault KGraph [(Name (lit "rankdir"), Name (lit "TB"))]; SDefault KEdge [(Name (lit "arrowhead"), Name (lit "vee"))];
      SSet (Name (lit "splines")) (Name (lit "true"))] ++ nodes ++ edges)).
Proof. exact (C98_dot_partial GRAPHVIZ_SUPPORTED_HTML_TAGS true [0; 12] [c98_edge] c98_args [] _ (Permutation_refl _) c98_ok). Qed.
Example c98_run : dot_read (to_dot GRAPHVIZ_SUPPORTED_HTML_TAGS true [0; 12] [c98_edge] c98_args) = Some (Dot true (Some (Name (lit "G")))
  [SDefault KGraph [(Name (lit "rankdir"), Name (lit "TB"))]; SDefault KEdge [(Name (lit "arrowhead"), Name (lit "vee"))];
   SSet (Name (lit "splines")) (Name (lit "true"));
   SNode (Name (lit "0")) [(Name (lit "label"), Html (lit "<b>a</b> &#38; &#60;"))];
   SNode (Name (lit "12")) [(Name (lit "label"), Html (lit "x&#91;1&#93;")); (Name (lit "color"), Name (lit "red"))];
   SEdge (Name (lit "0")) (Name (lit "12")) [(Name (lit "xlabel"), Name (lit "1\n2"))]]).
Proof. vm_compute. reflexivity. Qed.

(** Without these conditions. A quote in a value ends the value: here the text describes a vertex 7 that the graph does not have. *)
Definition c98_color (v : string) : dot_args := {| dg := []; extra_style := []; dv := []; de := [];
  dpv := [(lit "color", fun _ => Some (lit v))]; dpe := []; graphviz_style := Some [] |}.
Theorem C98_quote_refuted : exists vs (o : dot_args) d, dot_read (to_dot GRAPHVIZ_SUPPORTED_HTML_TAGS true vs [] o) = Some d /\ ~ In 7 vs /\
  exists i a, In (SNode i a) (dot_statements d) /\ numbered i = Some 7.
Proof.
  exists [0], (c98_color "red""]; 7 [color=""blue"). eexists. split; [vm_compute; reflexivity|]. split; [intros [E|[]]; discriminate E|].
  eexists _, _. split; [right; left; reflexivity|reflexivity].
Qed.
(** A value that ends with a backslash, and a label with "<" in a tag, are never closed: the text ends inside a string. *)
Definition c98_label (v : string) : dot_args := {| dg := []; extra_style := []; dv := []; de := [];
  dpv := [(lit "label", fun _ => Some (lit v))]; dpe := []; graphviz_style := Some [] |}.
Theorem C98_backslash_refuted : exists vs (o : dot_args) t s, run_lexer MStart (to_dot GRAPHVIZ_SUPPORTED_HTML_TAGS true vs [] o) = Some (t, MQuote s).
Proof. exists [0], (c98_color "C:\"). eexists _, _. vm_compute. reflexivity. Qed.
Theorem C98_label_refuted : exists vs (o : dot_args) t n s, run_lexer MStart (to_dot GRAPHVIZ_SUPPORTED_HTML_TAGS true vs [] o) = Some (t, MHtml n s).
Proof. exists [0], (c98_label "<b <> x"). eexists _, _, _. vm_compute. reflexivity. Qed.

Print Assumptions C98_dot_partial.
Print Assumptions C98_quote_refuted.
Print Assumptions C98_backslash_refuted.
Print Assumptions C98_label_refuted.
