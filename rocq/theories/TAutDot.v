(** Theorem C99: the DOT texts of the automata. *)
From Coq Require Import String Lia.
From Verif Require Import Str Graph Automaton NodeAut Nfa View Graphviz GraphvizSpec GraphvizProofs GraphvizProofs2 GraphDp TGraphDp DotSpec DotProofs DotProofs2 TDot AutDot.
From Verif Require Import AutomatonSpec AutomatonProofs.
From Verif Require Import Base BaseProofs.
Open Scope string_scope.
Open Scope nat_scope.
Open Scope list_scope.

(** ** Specification *)

(** no keyword argument *)
Definition plain {D} : kwargs_of D := mkKwargs None None Absent Absent Absent Absent Absent Absent None.
(** the attribute of a label: its escaped text, if any *)
Definition label_attribute (v : option str) (a : attributes) : Prop :=
  match v with None => a = [] | Some v => exists l, escapes v l /\ a = [(Name (lit "label"), Html (concat (map snd l)))] end.
(** the statement of a state: a double circle if it is final; [lab]: what its label says *)
Definition state_statement (final : nat -> bool) (lab : nat -> option str) (u : nat) (s : statement) : Prop :=
  exists i a, s = SNode i ((Name (lit "shape"), Name (if final u then lit "doublecircle" else lit "circle")) :: a) /\
    numbered i = Some u /\ label_attribute (lab u) a.
(** the statement of a transition *)
Definition transition_statement {D} (lab : edge D -> option str) (e : edge D) (s : statement) : Prop :=
  exists i j a, s = SEdge i j a /\ numbered i = Some (source e) /\ numbered j = Some (target e) /\ label_attribute (lab e) a.
(** the text is DOT and, after the default style, it has these statements *)
Definition draws {D} (t : str) (V : list nat) (E : list (edge D)) final labV labE : Prop := exists nodes edges,
  dot_read t = Some (Dot true (Some (Name (lit "G"))) (pybgl_style ++ nodes ++ edges)) /\
  Forall2 (state_statement final labV) V nodes /\ Forall2 (transition_statement labE) E edges.

(** ** Lemmas *)

Lemma attributes_label {X} (x : X) p a : attributes_of x [(lit "label", p)] a -> label_attribute (p x) a.
Proof.
  intros H. inversion H as [|k p' d a' N R|p' v l d a' S E R|k p' v d a' K S R]; subst.
  - inversion R; subst. rewrite N. reflexivity.
  - inversion R; subst. rewrite S. exists l. split; [exact E|reflexivity].
  - now destruct K.
Qed.
Lemma attributes_shape {X} (x : X) (p : X -> option str) d a v : p x = Some v -> attributes_of x ((lit "shape", p) :: d) a ->
  exists a', a = (Name (lit "shape"), Name v) :: a' /\ attributes_of x d a'.
Proof.
  intros P H. inversion H as [|k p' d' a' N R|p' w l d' a' S E R|k p' w d' a' K S R]; subst; [congruence|].
  exists a'. split; [congruence|exact R].
Qed.

Definition drawn_args {D} (final : nat -> bool) (labV : list (str * (nat -> option str))) (labE : edge D -> option str) : dot_args_of D :=
  DotArgs [] [] [] [] ((lit "shape", shape_map final) :: labV) [(lit "label", labE)] None.

Section Drawn.
  Variable tags : list str.
  Hypothesis Htags : Permutation tags GRAPHVIZ_SUPPORTED_HTML_TAGS.
  Lemma drawn {D} (V : list nat) (E : list (edge D)) final (m : option (nat -> option str)) labE :
    let labV := fun u => match m with Some p => p u | None => None end in
    (forall u v, In u V -> labV u = Some v -> dot_label v) -> (forall e v, In e E -> labE e = Some v -> dot_label v) ->
    draws (to_dot tags true V E (drawn_args final (match m with Some p => [(lit "label", p)] | None => [] end) labE)) V E final labV labE.
  Proof.
    intros labV HV HE. destruct (C98_dot_partial tags true V E (drawn_args final (match m with Some p => [(lit "label", p)] | None => [] end) labE) pybgl_style []) as (nodes & edges & FV & FE & R).
    - exact Htags.
    - unfold args_dot. cbn [drawn_args graphviz_style extra_style dg dv de dpv dpe]. split; [reflexivity|]. split; [now left|].
      split; [intros k v []|]. split; [intros k v []|]. split; [intros k v []|]. split.
      + intros k p x v [I|I] J Q.
        * injection I as <- <-. split; [apply key_check; reflexivity|]. split; [discriminate|]. intros _. unfold shape_map in Q.
          destruct (final x); injection Q as <-; apply value_check; reflexivity.
        * destruct m as [p'|]; [|destruct I]. destruct I as [I|[]]. injection I as <- <-. split; [apply key_check; reflexivity|]. split; [|congruence].
          intros _. exact (HV x v J Q).
      + intros k p x v [I|[]] J Q. injection I as <- <-. split; [apply key_check; reflexivity|]. split; [|congruence]. intros _. exact (HE x v J Q).
    - exists nodes, edges. cbn [drawn_args dg dv de default_statements app] in R. split; [exact R|]. split.
      + clear -FV. induction FV as [|u s V nodes H _ IH]; constructor; [|exact IH]. destruct H as (i & a & -> & N & O).
        cbn [drawn_args dpv] in O. destruct (attributes_shape _ _ _ _ _ eq_refl O) as (a' & -> & O'). exists i, a'. split; [reflexivity|]. split; [exact N|].
        subst labV. cbn beta. destruct m as [p|]; [now apply attributes_label|]. inversion O'; subst. reflexivity.
      + clear -FE. induction FE as [|e s E edges H _ IH]; constructor; [|exact IH]. destruct H as (i & j & a & -> & N & N' & O).
        exists i, j, a. repeat split; try assumption. now apply attributes_label.
  Qed.
End Drawn.

(** The methods without arguments *)
Lemma A_plain {A} {EA : EqDec A} tags text (g : aut A) : A_to_dot tags text g plain =
  Ok (to_dot tags true (A_vertices g) (A_edges g) (drawn_args (A_is_final g) [] (fun e => Some (text (A_label e))))).
Proof. reflexivity. Qed.
Definition nfa_label {A} {EA : EqDec A} (text : A -> str) (g : nfa A) (e : edge (A * list nat)) : option str :=
  Some (if eqb (N_label e) (nf_eps g) then lit "<i>" ++ [949%N] ++ lit "</i>" else text (N_label e)).
Lemma N_plain {A} {EA : EqDec A} tags text (g : nfa A) : N_to_dot tags text g plain =
  Ok (to_dot tags true (N_vertices g) (N_edges g) (drawn_args (N_is_final g) [] (nfa_label text g))).
Proof. reflexivity. Qed.
(** the label of a state of a NodeAutomaton *)
Definition shown {A} (text : A -> str) (g : naut A) (u : nat) : option str :=
  if NA_is_initial g u then Some (lit "^") else otext text (na_symbol g u).
Lemma NA_plain {A} tags text (g : naut A) : NA_to_dot tags text g plain =
  Ok (to_dot tags true (NA_vertices g) (NA_edges g) (drawn_args (na_final g) [(lit "label", shown text g)] (fun e => otext text (na_symbol g (target e))))).
Proof. reflexivity. Qed.

(** ** What the texts say *)

(** C99: the text written by Automaton.to_dot describes each state, with a double circle for the final states, and each transition, with its label. *)
Theorem C99_automaton {A} {EA : EqDec A} tags text (g : aut A) : Permutation tags GRAPHVIZ_SUPPORTED_HTML_TAGS ->
  (forall e, In e (A_edges g) -> dot_label (text (distinguisher e))) ->
  exists t, A_to_dot tags text g plain = Ok t /\
    draws t (A_vertices g) (A_edges g) (au_final g) (fun _ => None) (fun e => Some (text (distinguisher e))).
Proof.
  intros T L. eexists. split; [apply A_plain|]. apply (drawn tags T _ _ _ None); [discriminate|]. intros e v I Q. injection Q as <-. apply L, I.
Qed.
(** The same for Nfa.to_dot: the epsilon transitions have the label epsilon in italics. *)
Theorem C99_nfa {A} {EA : EqDec A} tags text (g : nfa A) : Permutation tags GRAPHVIZ_SUPPORTED_HTML_TAGS ->
  (forall e, In e (N_edges g) -> dot_label (text (fst (distinguisher e)))) ->
  exists t, N_to_dot tags text g plain = Ok t /\
    draws t (N_vertices g) (N_edges g) (nf_final g) (fun _ => None)
      (fun e => Some (if eqb (fst (distinguisher e)) (nf_eps g) then lit "<i>" ++ [949%N] ++ lit "</i>" else text (fst (distinguisher e)))).
Proof.
  intros T L. eexists. split; [apply N_plain|]. apply (drawn tags T _ _ _ None); [discriminate|]. intros e v I Q. injection Q as <-.
  destruct (eqb _ _); [|apply L, I]. apply label_scan. reflexivity.
Qed.
(** The same for NodeAutomaton.to_dot: the label of a state is its symbol (none if it has no symbol), "^" for the initial state; the label of a transition is the
    symbol of its target. *)
Theorem C99_node_automaton {A} tags text (g : naut A) : Permutation tags GRAPHVIZ_SUPPORTED_HTML_TAGS ->
  (forall q a, na_symbol g q = Some a -> dot_label (text a)) ->
  exists t, NA_to_dot tags text g plain = Ok t /\
    draws t (NA_vertices g) (NA_edges g) (na_final g)
      (fun q => if eqb (na_q0 g) (Some q) then Some (lit "^") else match na_symbol g q with Some a => Some (text a) | None => None end)
      (fun e => match na_symbol g (target e) with Some a => Some (text a) | None => None end).
Proof.
  intros T L. eexists. split; [apply NA_plain|]. apply (drawn tags T _ _ _ (Some (shown text g))).
  - intros u v _. unfold shown, otext. destruct (NA_is_initial g u); [intros Q; injection Q as <-; apply label_scan; reflexivity|].
    destruct (na_symbol g u) as [a|] eqn:S; [|discriminate]. intros Q. injection Q as <-. exact (L u a S).
  - intros e v _. unfold otext. destruct (na_symbol g (target e)) as [a|] eqn:S; [|discriminate]. intros Q. injection Q as <-. exact (L _ a S).
Qed.

(** ** The arguments of the caller: the attributes that the caller gives win; None for dpv or dpe raises AttributeError *)
Theorem C99_arguments {A} {EA : EqDec A} tags text (g : aut A) k :
  ((kw_dpv k = GivenNone \/ kw_dpe k = GivenNone) /\ A_to_dot tags text g k = Raise AttributeError) \/
  (kw_dpv k <> GivenNone /\ kw_dpe k <> GivenNone /\
   A_to_dot tags text g k = Ok (to_dot tags true (match kw_vs k with Some l => l | None => A_vertices g end) (match kw_es k with Some l => l | None => A_edges g end)
     (DotArgs (given (kw_dg k)) (given (kw_extra_style k)) (given (kw_dv k)) (given (kw_de k))
        (merged [(lit "shape", fun u => Some (if au_final g u then lit "doublecircle" else lit "circle"))] (given (kw_dpv k)))
        (merged [(lit "label", fun e => Some (text (distinguisher e)))] (given (kw_dpe k))) (kw_graphviz_style k)))).
Proof.
  assert (N : forall V (x : V) (s : str), NoDup (dkeys [(s, x)])) by (intros; constructor; [intros []|constructor]).
  unfold A_to_dot, base_to_dot. destruct (kw_dpv k) as [| |v] eqn:Q1.
  2: { left. split; [now left|reflexivity]. }
  all: destruct (kw_dpe k) as [| |e] eqn:Q2; [|left; split; [now right|cbn [enrich_kwargs rbind kw_set_dpv kw_dpe]; rewrite Q2; reflexivity]|]; right; (split; [discriminate|]); (split; [discriminate|]).
  all: cbn [enrich_kwargs rbind kw_set_dpv kw_dpe]; rewrite Q2; cbn [enrich_kwargs rbind]; unfold Graph_to_dot, kw_args; cbn [kw_set_dpe kw_set_dpv kw_vs kw_es kw_dpv kw_dpe kw_dg kw_dv kw_de kw_extra_style kw_graphviz_style kw_value given];
    rewrite !enrich_merged by apply N; reflexivity.
Qed.

(** ** What the texts determine, for symbols that are single characters *)

Definition one (c : char) : str := [c].
Lemma escapes_one c l : escapes [c] l -> concat (map snd l) = graphviz_escape_char c.
Proof.
  intros H. remember [c] as s eqn:Q. destruct H as [|t s l T E|x s l N S E|x s l S E]; [discriminate| | |].
  - exfalso. destruct (html_tag_gt t T) as (u & -> & G). destruct (html_tag_lt _ T) as [w Ew]. destruct u as [|y u]; [injection Ew as Ew _; discriminate Ew|].
    cbn in Q. injection Q as -> Q. destruct u; discriminate Q.
  - injection Q as -> ->. inversion E as [|t s l' T E'| |]; subst; [|exfalso; destruct (html_tag_lt _ T) as [w ->]; discriminate].
    cbn [map snd concat]. rewrite app_nil_r. symmetry. apply escape_special, S.
  - injection Q as -> ->. inversion E as [|t s l' T E'| |]; subst; [|exfalso; destruct (html_tag_lt _ T) as [w ->]; discriminate].
    cbn [map snd concat]. rewrite app_nil_r. symmetry. apply escape_plain, S.
Qed.
Definition eps_html : str := lit "<i>" ++ [949%N] ++ lit "</i>".
Lemma escapes_eps l : escapes eps_html l -> concat (map snd l) = eps_html.
Proof. intros E. rewrite <- (escape_escapes GRAPHVIZ_SUPPORTED_HTML_TAGS (Permutation_refl _) _ _ E). vm_compute. reflexivity. Qed.
Lemma escape_not_eps c : graphviz_escape_char c <> eps_html.
Proof.
  destruct (special_dec c) as [S|S]; [rewrite escape_special by exact S|rewrite escape_plain by exact S; discriminate].
  intros Q. pose proof (code_clean c S) as F. rewrite Q in F. inversion F as [|? ? [C _] _]; subst. apply C. now left.
Qed.
Definition simple (v : option str) : Prop := v = None \/ v = Some eps_html \/ exists c, v = Some (one c).
Lemma label_inj v v' a : simple v -> simple v' -> label_attribute v a -> label_attribute v' a -> v = v'.
Proof.
  assert (C : forall c l, escapes (one c) l -> concat (map snd l) = graphviz_escape_char c) by (intros c l; apply escapes_one).
  intros [-> | [-> | (c & ->)]] [-> | [-> | (c' & ->)]]; cbn [label_attribute]; try reflexivity; try (intros -> (l & _ & Q); discriminate Q); try (intros (l & _ & ->); discriminate).
  - intros (l & E & ->) (l' & E' & Q). injection Q as Q. rewrite (escapes_eps l E), (C c' l' E') in Q. now destruct (escape_not_eps c').
  - intros (l & E & ->) (l' & E' & Q). injection Q as Q. rewrite (escapes_eps l' E'), (C c l E) in Q. now destruct (escape_not_eps c).
  - intros (l & E & ->) (l' & E' & Q). injection Q as Q. rewrite (C c' l' E'), (C c l E) in Q. now rewrite (escape_char_inj _ _ Q).
Qed.
Lemma simple_label v s : simple (Some s) -> v = s -> dot_label v.
Proof.
  intros H ->. apply label_scan. destruct H as [H|[H|(c & H)]]; [discriminate|injection H as ->; reflexivity|]. injection H as ->. unfold one. cbn [scan].
  destruct (eqb c (ch "<")); [reflexivity|]. destruct (eqb c (ch ">")); reflexivity.
Qed.

Lemma statements_split {D} f l (V V' : list nat) f' l' (E E' : list (edge D)) g g' nodes nodes' edges edges' :
  Forall2 (state_statement f l) V nodes -> Forall2 (state_statement f' l') V' nodes' ->
  Forall2 (transition_statement g) E edges -> Forall2 (transition_statement g') E' edges' ->
  nodes ++ edges = nodes' ++ edges' -> nodes = nodes' /\ edges = edges'.
Proof.
  intros F F' G G'. revert V' nodes' F'. induction F as [|u s V nodes H _ IH]; intros V' nodes' F' Q.
  - destruct F' as [|u' s' V' nodes' H' F']; [split; [reflexivity|exact Q]|]. exfalso. cbn in Q. subst edges. inversion G as [|? ? ? ? K _]; subst.
    destruct H' as (? & ? & -> & _). destruct K as (? & ? & ? & K & _). discriminate K.
  - destruct F' as [|u' s' V' nodes' H' F'].
    + exfalso. cbn in Q. subst edges'. inversion G' as [|? ? ? ? K _]; subst. destruct H as (? & ? & -> & _). destruct K as (? & ? & ? & K & _). discriminate K.
    + cbn in Q. injection Q as -> Q. destruct (IH _ _ F' Q) as (-> & ->). now split.
Qed.
Lemma states_same f f' l l' V V' nodes : (forall u, simple (l u)) -> (forall u, simple (l' u)) ->
  Forall2 (state_statement f l) V nodes -> Forall2 (state_statement f' l') V' nodes -> V = V' /\ forall u, In u V -> f u = f' u /\ l u = l' u.
Proof.
  intros L L' F. revert V'. induction F as [|u s V nodes H _ IH]; intros V' F'; inversion F' as [|u' ? V0 ? H' F0]; subst; [split; [reflexivity|intros u []]|].
  destruct (IH _ F0) as (-> & K). destruct H as (i & a & -> & N & X). destruct H' as (i' & a' & Q & N' & X'). injection Q as <- Q <-.
  assert (u' = u) as -> by congruence. split; [reflexivity|]. intros x [<-|I]; [|now apply K]. split; [|now apply (label_inj _ _ a)].
  destruct (f u), (f' u); try reflexivity; discriminate Q.
Qed.
Lemma transitions_same {D} (g g' : edge D -> option str) E E' edges : (forall e, In e E -> simple (g e)) -> (forall e, In e E' -> simple (g' e)) ->
  Forall2 (transition_statement g) E edges -> Forall2 (transition_statement g') E' edges ->
  map (fun e => (source e, target e, g e)) E = map (fun e => (source e, target e, g' e)) E'.
Proof.
  intros L L' F. revert E' L'. induction F as [|e s E edges H _ IH]; intros E' L' F'; inversion F' as [|e' ? E0 ? H' F0]; subst; [reflexivity|].
  cbn [map]. rewrite (IH (fun e I => L e (or_intror I)) _ (fun e I => L' e (or_intror I)) F0).
  destruct H as (i & j & a & -> & N1 & N2 & X). destruct H' as (i' & j' & a' & Q & N1' & N2' & X'). injection Q as <- <- <-.
  f_equal. f_equal; [f_equal; congruence|]. apply (label_inj _ _ a); [apply L; now left|apply L'; now left|exact X|exact X'].
Qed.
Lemma draws_same {D} t (V V' : list nat) (E E' : list (edge D)) f f' l l' g g' :
  (forall u, simple (l u)) -> (forall u, simple (l' u)) -> (forall e, In e E -> simple (g e)) -> (forall e, In e E' -> simple (g' e)) ->
  draws t V E f l g -> draws t V' E' f' l' g' ->
  V = V' /\ (forall u, In u V -> f u = f' u /\ l u = l' u) /\ map (fun e => (source e, target e, g e)) E = map (fun e => (source e, target e, g' e)) E'.
Proof.
  intros L1 L2 L3 L4 (n & e & R & F & G) (n' & e' & R' & F' & G'). rewrite R in R'. injection R' as R'.
  destruct (statements_split _ _ _ _ _ _ _ _ _ _ _ _ _ _ F F' G G') as (<- & <-); [exact R'|].
  destruct (states_same _ _ _ _ _ _ _ L1 L2 F F') as (Q & K). split; [exact Q|]. split; [exact K|]. exact (transitions_same _ _ _ _ _ L3 L4 G G').
Qed.
Lemma text_same {D} tags V (E E' : list (edge D)) f f' (l l' : nat -> option str) (b : bool) g g' :
  (forall u, In u V -> f u = f' u /\ l u = l' u) -> map (fun e => (source e, target e, g e)) E = map (fun e => (source e, target e, g' e)) E' ->
  to_dot tags true V E (drawn_args f (if b then [(lit "label", l)] else []) g) = to_dot tags true V E' (drawn_args f' (if b then [(lit "label", l')] else []) g').
Proof.
  intros K M. unfold to_dot. cbn [drawn_args graphviz_style extra_style dg dv de dpv dpe]. cbv zeta.
  replace (map (fun u => vertex_to_graphviz tags u ((lit "shape", shape_map f) :: (if b then [(lit "label", l)] else []))) V)
    with (map (fun u => vertex_to_graphviz tags u ((lit "shape", shape_map f') :: (if b then [(lit "label", l')] else []))) V).
  - replace (map (fun e => edge_to_graphviz tags true e [(lit "label", g)]) E) with (map (fun e => edge_to_graphviz tags true e [(lit "label", g')]) E'); [reflexivity|].
    clear K. revert E' M. induction E as [|e E IH]; intros [|e' E'] M; try discriminate M; [reflexivity|]. cbn [map] in *. injection M as M1 M2 M3 M. rewrite (IH _ M). f_equal.
    unfold edge_to_graphviz, graphviz_properties_to_str. cbn [flat_map]. now rewrite M1, M2, M3.
  - apply map_ext_in. intros u I. destruct (K u I) as [K1 K2]. unfold vertex_to_graphviz, graphviz_properties_to_str, shape_map. destruct b; cbn [flat_map]; rewrite ?K1, ?K2; reflexivity.
Qed.

Lemma cons_inv {X} (x y : X) l l' : x :: l = y :: l' -> x = y /\ l = l'.
Proof. intros Q. injection Q as -> ->. now split. Qed.

(** Two automata have the same text exactly if they have the same states, final states and transitions. *)
Theorem C99_same_text tags (g g' : aut char) : Permutation tags GRAPHVIZ_SUPPORTED_HTML_TAGS ->
  A_to_dot tags one g plain = A_to_dot tags one g' plain <->
  A_vertices g = A_vertices g' /\ (forall q, In q (A_vertices g) -> au_final g q = au_final g' q) /\ A_edges g = A_edges g'.
Proof.
  intros T. assert (S : forall e : edge char, simple (Some (one (distinguisher e)))) by (intros e; right; right; now eexists). split.
  - intros Q. destruct (C99_automaton tags one g T) as (t & Q1 & D1). { intros e _. exact (simple_label _ _ (S e) eq_refl). }
    destruct (C99_automaton tags one g' T) as (t' & Q2 & D2). { intros e _. exact (simple_label _ _ (S e) eq_refl). }
    rewrite Q1, Q2 in Q. injection Q as <-.
    destruct (draws_same _ _ _ _ _ _ _ _ _ _ _ (fun _ => or_introl eq_refl) (fun _ => or_introl eq_refl) (fun e _ => S e) (fun e _ => S e) D1 D2) as (V & F & E).
    split; [exact V|]. split; [intros q I; exact (proj1 (F q I))|]. revert E. generalize (A_edges g) as es, (A_edges g') as es'.
    induction es as [|[s t0 d] es IH]; intros [|[s' t' d'] es'] E; try discriminate E; [reflexivity|]. cbn [map] in E. injection E as -> -> -> E. now rewrite (IH _ E).
  - intros (V & F & E). rewrite !A_plain, <- V, <- E. f_equal. apply (text_same tags _ _ _ _ _ (fun _ => None) (fun _ => None) false); [|reflexivity].
    intros u I. split; [exact (F u I)|reflexivity].
Qed.
(** For Nfa.to_dot: the same states, final states and transitions, without the numbers of parallel transitions; the symbol used for epsilon is not shown. *)
Definition nfa_shown (g : nfa char) (e : edge (char * list nat)) : nat * nat * option char :=
  (source e, target e, if eqb (fst (distinguisher e)) (nf_eps g) then None else Some (fst (distinguisher e))).
Theorem C99_nfa_same_text tags (g g' : nfa char) : Permutation tags GRAPHVIZ_SUPPORTED_HTML_TAGS ->
  N_to_dot tags one g plain = N_to_dot tags one g' plain <->
  N_vertices g = N_vertices g' /\ (forall q, In q (N_vertices g) -> nf_final g q = nf_final g' q) /\ map (nfa_shown g) (N_edges g) = map (nfa_shown g') (N_edges g').
Proof.
  intros T. assert (S : forall (g : nfa char) e, simple (nfa_label one g e)).
  { intros h e. right. unfold nfa_label. destruct (eqb _ _); [now left|]. right. now eexists. }
  assert (L : forall c, dot_label (one c)). { intros c. apply (simple_label _ (one c)); [right; right; now eexists|reflexivity]. }
  assert (X : forall es es' : list (edge (char * list nat)), map (fun e => (source e, target e, nfa_label one g e)) es = map (fun e => (source e, target e, nfa_label one g' e)) es' <->
    map (nfa_shown g) es = map (nfa_shown g') es').
  { induction es as [|e es IH]; intros [|e' es']; cbn [map]; try (split; [discriminate|discriminate]); [split; reflexivity|].
    assert (Y : (source e, target e, nfa_label one g e) = (source e', target e', nfa_label one g' e') <-> nfa_shown g e = nfa_shown g' e').
    { unfold nfa_shown, nfa_label, N_label. destruct (eqb (fst (distinguisher e)) _), (eqb (fst (distinguisher e')) _); split; intros Q; injection Q as Q1 Q2; try discriminate; try congruence. }
    specialize (IH es'). split; intros Q; apply cons_inv in Q as [Q Q']; apply Y in Q; apply IH in Q'; rewrite Q, Q'; reflexivity. }
  split.
  - intros Q. destruct (C99_nfa tags one g T (fun e _ => L _)) as (t & Q1 & D1). destruct (C99_nfa tags one g' T (fun e _ => L _)) as (t' & Q2 & D2).
    rewrite Q1, Q2 in Q. injection Q as <-.
    destruct (draws_same _ _ _ _ _ _ _ _ _ _ _ (fun _ => or_introl eq_refl) (fun _ => or_introl eq_refl) (fun e _ => S g e) (fun e _ => S g' e) D1 D2) as (V & F & E).
    split; [exact V|]. split; [intros q I; exact (proj1 (F q I))|]. apply X. exact E.
  - intros (V & F & E). apply X in E. rewrite !N_plain, <- V. f_equal. apply (text_same tags _ _ _ _ _ (fun _ => None) (fun _ => None) false); [|exact E].
    intros u I. split; [exact (F u I)|reflexivity].
Qed.
(** For NodeAutomaton.to_dot: if "^" is the symbol of no state, the same states, initial state, final states, symbols of the other states, and transitions with the
    symbols of their targets. *)
Definition ends_symbol (g : naut char) (e : edge (option char)) : nat * nat * option char := (source e, target e, na_symbol g (target e)).
Theorem C99_node_same_text tags (g g' : naut char) : Permutation tags GRAPHVIZ_SUPPORTED_HTML_TAGS ->
  (forall q, na_symbol g q <> Some (ch "^")) -> (forall q, na_symbol g' q <> Some (ch "^")) ->
  NA_to_dot tags one g plain = NA_to_dot tags one g' plain <->
  NA_vertices g = NA_vertices g' /\
  (forall q, In q (NA_vertices g) -> na_final g q = na_final g' q /\ (na_q0 g = Some q <-> na_q0 g' = Some q) /\ (na_q0 g <> Some q -> na_symbol g q = na_symbol g' q)) /\
  map (ends_symbol g) (NA_edges g) = map (ends_symbol g') (NA_edges g').
Proof.
  intros T H H'. assert (L : forall c, dot_label (one c)). { intros c. apply (simple_label _ (one c)); [right; right; now eexists|reflexivity]. }
  assert (O : forall x, simple (otext one x)). { intros [c|]; [|now left]. right. right. now eexists. }
  assert (S : forall (g : naut char) u, simple (shown one g u)). { intros h u. unfold shown. destruct (NA_is_initial h u); [|apply O]. right. right. now exists (ch "^"). }
  assert (OI : forall x y, otext one x = otext one y <-> x = y). { intros [x|] [y|]; split; intros Q; try discriminate Q; [now injection Q as ->|now injection Q as ->|reflexivity..]. }
  assert (X : forall es es' : list (edge (option char)), map (fun e => (source e, target e, otext one (na_symbol g (target e)))) es = map (fun e => (source e, target e, otext one (na_symbol g' (target e)))) es' <->
    map (ends_symbol g) es = map (ends_symbol g') es').
  { induction es as [|e es IH]; intros [|e' es']; cbn [map]; try (split; [discriminate|discriminate]); [split; reflexivity|]. specialize (IH es'). unfold ends_symbol at 1 3.
    split; intros Q; injection Q as Q1 Q2 Q3 Q; rewrite Q1, Q2 in *; [apply OI in Q3|apply OI in Q3]; (f_equal; [f_equal; exact Q3|apply IH, Q]). }
  assert (K : forall q, shown one g q = shown one g' q <-> (na_q0 g = Some q <-> na_q0 g' = Some q) /\ (na_q0 g <> Some q -> na_symbol g q = na_symbol g' q)).
  { intros q. unfold shown, NA_is_initial. destruct (BaseProofs.eqb_spec (na_q0 g) (Some q)) as [I|I], (BaseProofs.eqb_spec (na_q0 g') (Some q)) as [I'|I'].
    - split; [|reflexivity]. intros _. split; [tauto|contradiction].
    - split; [|tauto]. intros Q. exfalso. apply (H' q). destruct (na_symbol g' q) as [c|]; cbn in Q; [|discriminate Q]. injection Q as <-. reflexivity.
    - split; [|tauto]. intros Q. exfalso. apply (H q). destruct (na_symbol g q) as [c|]; cbn in Q; [|discriminate Q]. injection Q as ->. reflexivity.
    - rewrite OI. tauto. }
  split.
  - intros Q. destruct (C99_node_automaton tags one g T (fun q a _ => L a)) as (t & Q1 & D1). destruct (C99_node_automaton tags one g' T (fun q a _ => L a)) as (t' & Q2 & D2).
    rewrite Q1, Q2 in Q. injection Q as <-.
    destruct (draws_same _ _ _ _ _ _ _ _ _ _ _ (S g) (S g') (fun e _ => O (na_symbol g (target e))) (fun e _ => O (na_symbol g' (target e))) D1 D2) as (V & F & E).
    split; [exact V|]. split; [|apply X; exact E]. intros q I. destruct (F q I) as [F1 F2]. split; [exact F1|]. apply K. exact F2.
  - intros (V & F & E). apply X in E. rewrite !NA_plain, <- V. f_equal. apply (text_same tags _ _ _ _ _ (shown one g) (shown one g') true); [|exact E].
    intros u I. destruct (F u I) as [F1 F2]. split; [exact F1|]. apply K. exact F2.
Qed.

(** Automata built by any sequence of calls, with the same text and the same initial state, accept the same words, provided that the targets of the transitions
    and the initial state are states. *)
Theorem C99_language tags n n' ops ops' q0 : Permutation tags GRAPHVIZ_SUPPORTED_HTML_TAGS ->
  let g := fst (runs A_call (A_init n) ops) in let g' := fst (runs A_call (A_init (A := char) n') ops') in
  A_to_dot tags one g plain = A_to_dot tags one g' plain -> A_initial g = Some q0 -> A_initial g' = Some q0 ->
  In q0 (A_vertices g) -> (forall e, In e (A_edges g) -> In (target e) (A_vertices g)) -> forall w, A_accepts g w = A_accepts g' w.
Proof.
  intros T g g' Q I I' V0 VE w. apply (C99_same_text tags g g' T) in Q. destruct Q as (V & F & E).
  destruct (arep_runs n ops) as [R _]. destruct (arep_runs n' ops') as [R' _]. fold g in R. fold g' in R'.
  assert (X : forall q w r, path (A_edges g) q w r -> In q (A_vertices g) -> In r (A_vertices g)).
  { intros q v r P. induction P as [|q a r v t J P IH]; [auto|]. intros _. apply IH. exact (VE _ J). }
  apply eq_true_iff_eq. rewrite (accepts_path g _ R), (accepts_path g' _ R'), <- E, I, I'. split; intros (q & r & Q & P & Fr); injection Q as <-; exists q0, r; (split; [reflexivity|]); (split; [exact P|]).
  - unfold A_is_final in *. rewrite <- F; [exact Fr|]. exact (X _ _ _ P V0).
  - unfold A_is_final in *. rewrite F; [exact Fr|]. exact (X _ _ _ P V0).
Qed.

(** ** What the texts do not determine *)

(** The initial state is not in the text of Automaton.to_dot and Nfa.to_dot. *)
Definition c99_aut (ops : list (aop char)) : aut char := fst (runs A_call (A_init 2) ([AAddEdge 0 1 (ch "<"); AAddEdge 1 0 (ch "b"); ASetFinal 1 true] ++ ops)).
Theorem C99_initial_refuted : exists (g g' : aut char) w,
  A_to_dot GRAPHVIZ_SUPPORTED_HTML_TAGS one g plain = A_to_dot GRAPHVIZ_SUPPORTED_HTML_TAGS one g' plain /\ A_accepts g w = true /\ A_accepts g' w = false.
Proof. exists (c99_aut []), (c99_aut [ASetInitial (Some 1) true]), (lit "<"). vm_compute. repeat split. Qed.
Definition c99_nfa (ops : list (nfop char)) : nfa char := fst (runs N_call (N_init 3 [0] 949%N) ([FSetFinal 2 true; FAddEdge 0 1 949%N; FAddEdge 0 1 (ch "a"); FAddEdge 1 2 (ch "a")] ++ ops)).
Theorem C99_nfa_initial_refuted : exists (g g' : nfa char) w,
  N_to_dot GRAPHVIZ_SUPPORTED_HTML_TAGS one g plain = N_to_dot GRAPHVIZ_SUPPORTED_HTML_TAGS one g' plain /\ N_accepts g w = Some true /\ N_accepts g' w = Some false.
Proof. exists (c99_nfa []), (c99_nfa [FSetInitials [1]]), (lit "aa"). vm_compute. repeat split. Qed.
(** In NodeAutomaton.to_dot a state with the symbol "^" looks like the initial state. *)
Definition c99_node (ops : list (nvop char)) : naut char :=
  fst (runs NA_call (NA_init_n 0) ([VAddVertex (Some (ch "^")); VAddVertex (Some (ch "^")); VAddEdge 0 1; VSetFinal 1 true] ++ ops)).
Theorem C99_caret_refuted : exists (g g' : naut char) w,
  NA_to_dot GRAPHVIZ_SUPPORTED_HTML_TAGS one g plain = NA_to_dot GRAPHVIZ_SUPPORTED_HTML_TAGS one g' plain /\ NA_accepts g w = Ok true /\ NA_accepts g' w = Ok false.
Proof. exists (c99_node []), (c99_node [VSetInitial (Some 1) true]), (lit "^"). vm_compute. repeat split. Qed.

(** ** Cases *)

Example c99_automaton_case : exists t, A_to_dot GRAPHVIZ_SUPPORTED_HTML_TAGS one (c99_aut []) plain = Ok t /\
  dot_read t = Some (Dot true (Some (Name (lit "G"))) (pybgl_style ++
    [SNode (Name (lit "0")) [(Name (lit "shape"), Name (lit "circle"))]; SNode (Name (lit "1")) [(Name (lit "shape"), Name (lit "doublecircle"))];
     SEdge (Name (lit "0")) (Name (lit "1")) [(Name (lit "label"), Html (lit "&#60;"))]; SEdge (Name (lit "1")) (Name (lit "0")) [(Name (lit "label"), Html (lit "b"))]])).
Proof. eexists. split; [vm_compute; reflexivity|]. vm_compute. reflexivity. Qed.
Example c99_nfa_case : exists t, N_to_dot GRAPHVIZ_SUPPORTED_HTML_TAGS one (c99_nfa []) plain = Ok t /\
  dot_read t = Some (Dot true (Some (Name (lit "G"))) (pybgl_style ++
    [SNode (Name (lit "0")) [(Name (lit "shape"), Name (lit "circle"))]; SNode (Name (lit "1")) [(Name (lit "shape"), Name (lit "circle"))];
     SNode (Name (lit "2")) [(Name (lit "shape"), Name (lit "doublecircle"))];
     SEdge (Name (lit "0")) (Name (lit "1")) [(Name (lit "label"), Html (lit "<i>" ++ [949%N] ++ lit "</i>"))];
     SEdge (Name (lit "0")) (Name (lit "1")) [(Name (lit "label"), Html (lit "a"))]; SEdge (Name (lit "1")) (Name (lit "2")) [(Name (lit "label"), Html (lit "a"))]])).
Proof. eexists. split; [vm_compute; reflexivity|]. vm_compute. reflexivity. Qed.
Example c99_node_case :
  let g := fst (runs NA_call (NA_init_n 0) [VAddVertex None; VAddVertex (Some (ch "a")); VAddVertex None; VAddEdge 0 1; VAddEdge 1 2; VSetFinal 1 true]) in
  (forall q, na_symbol g q <> Some (ch "^")) /\ exists t, NA_to_dot GRAPHVIZ_SUPPORTED_HTML_TAGS one g plain = Ok t /\
  dot_read t = Some (Dot true (Some (Name (lit "G"))) (pybgl_style ++
    [SNode (Name (lit "0")) [(Name (lit "shape"), Name (lit "circle")); (Name (lit "label"), Html (lit "^"))];
     SNode (Name (lit "1")) [(Name (lit "shape"), Name (lit "doublecircle")); (Name (lit "label"), Html (lit "a"))];
     SNode (Name (lit "2")) [(Name (lit "shape"), Name (lit "circle"))];
     SEdge (Name (lit "0")) (Name (lit "1")) [(Name (lit "label"), Html (lit "a"))]; SEdge (Name (lit "1")) (Name (lit "2")) []])).
Proof.
  intros g. split; [intros [|[|[|q]]]; vm_compute; discriminate|]. eexists. split; [vm_compute; reflexivity|]. vm_compute. reflexivity.
Qed.
(** Different histories with the same text *)
Example c99_language_case : forall w,
  A_accepts (c99_aut []) w = A_accepts (c99_aut [ASetInitial (Some 1) true; AAddEdge 0 0 (ch "x"); ARemoveEdge (Edge 0 0 (ch "x")); ASetInitial (Some 0) true]) w.
Proof.
  apply (C99_language GRAPHVIZ_SUPPORTED_HTML_TAGS 2 2 _ _ 0 (Permutation_refl _)); [vm_compute; reflexivity..|vm_compute; auto|].
  intros e [<-|[<-|[]]]; vm_compute; auto.
Qed.
(** The caller gives a shape and a color *)
Example c99_arguments_case : exists t, A_to_dot GRAPHVIZ_SUPPORTED_HTML_TAGS one (c99_aut [])
    (mkKwargs (Some [1]) (Some []) (Given [(lit "color", fun _ => Some (lit "red")); (lit "shape", fun _ => Some (lit "box"))]) Absent Absent Absent Absent Absent (Some [])) = Ok t /\
  dot_read t = Some (Dot true (Some (Name (lit "G"))) [SNode (Name (lit "1")) [(Name (lit "color"), Name (lit "red")); (Name (lit "shape"), Name (lit "box"))]]).
Proof. eexists. split; [vm_compute; reflexivity|]. vm_compute. reflexivity. Qed.

Print Assumptions C99_automaton.
Print Assumptions C99_nfa.
Print Assumptions C99_node_automaton.
Print Assumptions C99_arguments.
Print Assumptions C99_same_text.
Print Assumptions C99_nfa_same_text.
Print Assumptions C99_node_same_text.
Print Assumptions C99_language.
Print Assumptions C99_initial_refuted.
Print Assumptions C99_nfa_initial_refuted.
Print Assumptions C99_caret_refuted.
