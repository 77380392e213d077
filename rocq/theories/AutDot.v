(** Model of the to_dot methods of Automaton, Nfa, NodeAutomaton and GraphView. *)
From Coq Require Import String.
From Verif Require Import Str Graph Automaton NodeAut Nfa View Graphviz GraphDp.
From Verif Require Import Base.
Open Scope string_scope.
Open Scope nat_scope.
Open Scope list_scope.

Section AutDot.
  Context {A : Type} {EA : EqDec A}.
  (** the order of the tags in GRAPHVIZ_HTML_TOKENIZER *)
  Variable tags : list str.
  (** [str] on a symbol *)
  Variable text : A -> str.

  (** Graph.to_dot, graph.py:375-383, on the graph with the given vertices and edges: the function to_dot with the keyword arguments *)
  Definition Graph_to_dot {D} (directed : bool) (vertices : list nat) (edges : list (edge D)) (k : kwargs_of D) : str :=
    to_dot tags directed (match kw_vs k with Some vs => vs | None => vertices end) (match kw_es k with Some es => es | None => edges end) (kw_args k).
  (** The update of kwargs["dpv"], automaton.py:324, nfa.py:338, node_automaton.py:242. *)
  Definition kw_set_dpv {D} (k : kwargs_of D) x : kwargs_of D :=
    mkKwargs (kw_vs k) (kw_es k) x (kw_dpe k) (kw_dg k) (kw_dv k) (kw_de k) (kw_extra_style k) (kw_graphviz_style k).
  (** The update of kwargs["dpe"], automaton.py:325, nfa.py:339. *)
  Definition kw_set_dpe {D} (k : kwargs_of D) x : kwargs_of D :=
    mkKwargs (kw_vs k) (kw_es k) (kw_dpv k) x (kw_dg k) (kw_dv k) (kw_de k) (kw_extra_style k) (kw_graphviz_style k).

  (** the property map of the shape: automaton.py:317-319, nfa.py:326-328, node_automaton.py:235-237 *)
  Definition shape_map (is_final : nat -> bool) : nat -> option str :=
    fun u => Some (if is_final u then lit "doublecircle" else lit "circle").

  (** Automaton.to_dot, automaton.py:308-326, for an automaton with the given vertices, edges, is_final and label; NodeAutomaton.to_dot also
      calls it. *)
  Definition base_to_dot {D} (vertices : list nat) (edges : list (edge D)) (is_final : nat -> bool) (label : edge D -> option str)
      (k : kwargs_of D) : res str :=
    rbind (enrich_kwargs [(lit "shape", shape_map is_final)] (kw_dpv k)) (fun dpv =>
    let k := kw_set_dpv k dpv in
    rbind (enrich_kwargs [(lit "label", label)] (kw_dpe k)) (fun dpe =>
    Ok (Graph_to_dot true vertices edges (kw_set_dpe k dpe)))).
  (** Automaton.label, automaton.py:253-265 *)
  Definition A_label (e : edge A) : A := distinguisher e.
  (** Automaton.to_dot, automaton.py:308-326. *)
  Definition A_to_dot (g : aut A) (k : kwargs_of A) : res str :=
    base_to_dot (A_vertices g) (A_edges g) (A_is_final g) (fun e => Some (text (A_label e))) k.

  (** Nfa.to_dot, nfa.py:317-340; 949 is U+03B5 *)
  Definition N_to_dot (g : nfa A) (k : kwargs_of (A * list nat)) : res str :=
    rbind (enrich_kwargs [(lit "shape", shape_map (N_is_final g))] (kw_dpv k)) (fun dpv =>
    let k := kw_set_dpv k dpv in
    rbind (enrich_kwargs [(lit "label", fun e : edge (A * list nat) =>
      Some (if eqb (N_label e) (nf_eps g) then lit "<i>" ++ [949%N] ++ lit "</i>" else text (N_label e)))] (kw_dpe k)) (fun dpe =>
    Ok (Graph_to_dot true (N_vertices g) (N_edges g) (kw_set_dpe k dpe)))).

  (** NodeAutomaton.to_dot, node_automaton.py:226-243, then Automaton.to_dot; a state without symbol (None) has no label attribute. *)
  Definition otext (a : option A) : option str := match a with Some a => Some (text a) | None => None end.
  (** NodeAutomaton.to_dot, node_automaton.py:226-243. *)
  Definition NA_to_dot (g : naut A) (k : kwargs_of (option A)) : res str :=
    rbind (enrich_kwargs [(lit "shape", shape_map (na_final g));
                          (lit "label", fun u => if NA_is_initial g u then Some (lit "^") else otext (na_symbol g u))] (kw_dpv k)) (fun dpv =>
    base_to_dot (NA_vertices g) (NA_edges g) (na_final g) (fun e => otext (NA_label g e)) (kw_set_dpv k dpv)).
End AutDot.

(** GraphView.to_dot, graph_view.py:244-260, on a view of a graph with the edges [edge D]; [g_to_dot]: the method to_dot of the viewed graph.
    The sets [vs] and [es] are iterated in an unknown order: [ovs] and [oes] give it. The arguments vs and es, if given, are sets. *)
Definition view_to_dot {D} `{EqDec D} (g_to_dot : kwargs_of D -> res str) (w : @view (edge D)) (ovs : list nat -> list nat) (oes : list (edge D) -> list (edge D))
    (k : kwargs_of D) : res str :=
  let vs := sof (view_vertices w) in
  let es := sof (view_edges w) in
  let vs := match kw_vs k with Some vs_ => filter (fun u => mem u vs_) vs | None => vs end in
  let es := match kw_es k with Some es_ => filter (fun e => mem e es_) es | None => es end in
  g_to_dot (mkKwargs (Some (ovs vs)) (Some (oes es)) (kw_dpv k) (kw_dpe k) (kw_dg k) (kw_dv k) (kw_de k) (kw_extra_style k) (kw_graphviz_style k)).
