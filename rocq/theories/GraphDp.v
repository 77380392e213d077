(** Model of src/pybgl/graph_dp.py and of enrich_kwargs in src/pybgl/graphviz_impl.py. *)
From Coq Require Import String.
From Verif Require Import Str Graph Graphviz.
From Verif Require Import Base.
Open Scope string_scope.
Open Scope nat_scope.
Open Scope list_scope.

(** The attributes of a GraphDp, graph_dp.py:35-70, besides the graph. As in Graphviz.v, a property map gives the string
    of its value, [None] if the value is None, and does not raise. The names of the attributes are strings. *)
Record graph_dp := mkGraphDp {
  gdp_dpv : dict str (nat -> option str); gdp_dpe : dict str (gedge -> option str);
  gdp_dg : dict str str; gdp_dv : dict str str; gdp_de : dict str str; gdp_extra_style : list str }.

(** The class attributes of GraphvizStyle, graphviz_impl.py:36-51, before any call to set_fg_color and set_bg_color *)
Definition style_graph : dict str str := [(lit "fontcolor", lit "black"); (lit "bgcolor", lit "transparent"); (lit "rankdir", lit "LR")].
(** GraphvizStyle.node, graphviz_impl.py:41-46 *)
Definition style_node : dict str str :=
  [(lit "color", lit "black"); (lit "fontcolor", lit "black"); (lit "fillcolor", lit "transparent"); (lit "shape", lit "circle")].
(** GraphvizStyle.edge, graphviz_impl.py:47-50 *)
Definition style_edge : dict str str := [(lit "color", lit "black"); (lit "fontcolor", lit "black")].

(** [x if x else y]: None and the empty dict or list are false (graph_dp.py:64-70) *)
Definition or_default {X} (x : option (list X)) (y : list X) : list X :=
  match x with Some (a :: l) => a :: l | _ => y end.
(** GraphDp.__init__, graph_dp.py:35-70 *)
Definition GraphDp_init dpv dpe dg dv de extra_style : graph_dp :=
  mkGraphDp (or_default dpv []) (or_default dpe []) (or_default dg style_graph) (or_default dv style_node)
    (or_default de style_edge) (or_default extra_style []).

(** The getters, graph_dp.py:72-85; get_dpe reads the attribute dpve, which does not exist. *)
Definition get_dpv (d : graph_dp) : res (dict str (nat -> option str)) := Ok (gdp_dpv d).
(** get_dpe, graph_dp.py:75-76 *)
Definition get_dpe (d : graph_dp) : res (dict str (gedge -> option str)) := Raise AttributeError.
(** get_dg, graph_dp.py:78-79 *)
Definition get_dg (d : graph_dp) : res (dict str str) := Ok (gdp_dg d).
(** get_dv, graph_dp.py:81-82 *)
Definition get_dv (d : graph_dp) : res (dict str str) := Ok (gdp_dv d).
(** get_de, graph_dp.py:84-85 *)
Definition get_de (d : graph_dp) : res (dict str str) := Ok (gdp_de d).

(** enrich_kwargs, graphviz_impl.py:337-360, on the value of one key of kwargs: the key is absent, or its value is None, or it is
    a dict, which is modified in place. *)
Inductive kwarg (D : Type) := Absent | GivenNone | Given (d : D).
Arguments Absent {D}. Arguments GivenNone {D}. Arguments Given {D} d.
(** The loop of enrich_kwargs, graphviz_impl.py:357-359 *)
Definition enrich_dict {V} (default_d d : dict str V) : dict str V :=
  fold_left (fun d '(k, v) => if dmem d k then d else dset d k v) default_d d.
(** enrich_kwargs, graphviz_impl.py:337-360 *)
Definition enrich_kwargs {V} (default_d : dict str V) (x : kwarg (dict str V)) : res (kwarg (dict str V)) :=
  match default_d with
  | [] => Ok x
  | _ =>
      match x with
      | Absent => Ok (Given (enrich_dict default_d []))
      | GivenNone => Raise AttributeError
      | Given d => Ok (Given (enrich_dict default_d d))
      end
  end.
(** The same on extra_style: the default value is a list, which has no method items; the value in kwargs is a string (graph_dp.py:100, graphviz_impl.py:353-360). *)
Definition enrich_extra_style (default_d : list str) (x : kwarg str) : res (kwarg str) :=
  match default_d with [] => Ok x | _ => Raise AttributeError end.

(** The keyword arguments of GraphDp.to_dot and of the function to_dot (graph_dp.py:87-101, graphviz_impl.py:364-376) *)
Record kwargs_of (D : Type) := mkKwargs {
  kw_vs : option (list nat); kw_es : option (list (edge D));
  kw_dpv : kwarg (dict str (nat -> option str)); kw_dpe : kwarg (dict str (edge D -> option str));
  kw_dg : kwarg (dict str str); kw_dv : kwarg (dict str str); kw_de : kwarg (dict str str);
  kw_extra_style : kwarg str; kw_graphviz_style : option str }.
Arguments mkKwargs {D}. Arguments kw_vs {D} _. Arguments kw_es {D} _. Arguments kw_dpv {D} _. Arguments kw_dpe {D} _.
Arguments kw_dg {D} _. Arguments kw_dv {D} _. Arguments kw_de {D} _. Arguments kw_extra_style {D} _. Arguments kw_graphviz_style {D} _.
Notation kwargs := (kwargs_of nat).
(** an absent or None argument is an empty dictionary for to_dot, an absent extra_style the empty string (graphviz_impl.py:364-376, 416-424) *)
Definition kw_value {X} (x : kwarg (list X)) : list X := match x with Given d => d | _ => [] end.
(** The call of to_dot, graph_dp.py:101 *)
Definition kw_args {D} (k : kwargs_of D) : dot_args_of D :=
  DotArgs (kw_value (kw_dg k)) (kw_value (kw_extra_style k)) (kw_value (kw_dv k)) (kw_value (kw_de k))
    (kw_value (kw_dpv k)) (kw_value (kw_dpe k)) (kw_graphviz_style k).

Section GraphDp.
  (** the order of the tags in GRAPHVIZ_HTML_TOKENIZER *)
  Variable tags : list str.
  (** the wrapped graph: whether it is directed, its vertices and its edges *)
  Variables (directed : bool) (vertices : list nat) (edges : list gedge).

  (** GraphDp.to_dot, graph_dp.py:87-101; the vertex_to_str argument is [str] as in Graphviz.v *)
  Definition GraphDp_to_dot (d : graph_dp) (k : kwargs) : res str :=
    rbind (enrich_kwargs (gdp_dpv d) (kw_dpv k)) (fun dpv =>
    rbind (enrich_kwargs (gdp_dpe d) (kw_dpe k)) (fun dpe =>
    rbind (enrich_kwargs (gdp_dg d) (kw_dg k)) (fun dg =>
    rbind (enrich_kwargs (gdp_dv d) (kw_dv k)) (fun dv =>
    rbind (enrich_kwargs (gdp_de d) (kw_de k)) (fun de =>
    rbind (enrich_extra_style (gdp_extra_style d) (kw_extra_style k)) (fun extra_style =>
    Ok (to_dot tags directed (match kw_vs k with Some vs => vs | None => vertices end)
          (match kw_es k with Some es => es | None => edges end)
          (kw_args (mkKwargs (kw_vs k) (kw_es k) dpv dpe dg dv de extra_style (kw_graphviz_style k)))))))))).

  (** ["%s" % x] (graph_dp.py:129, 140) *)
  Definition percent_s (x : option str) : str := match x with Some s => s | None => lit "None" end.
  (** a line feed in the formats of graph_dp.py:11-26 *)
  Definition nl : str := [10%N].
  (** a quoted name in the formats of graph_dp.py:11-26, 129, 140 *)
  Definition quoted (s : str) : str := lit """" ++ s ++ lit """".
  (** the twelve spaces of graph_dp.py:17-26, 128, 139 *)
  Definition indent12 : str := lit "            ".
  (** the list comprehensions on the attributes, graph_dp.py:128-131 and 139-142 *)
  Definition json_attributes {X} (x : X) (dpx : dict str (X -> option str)) : str :=
    join (lit "," ++ nl ++ indent12) (map (fun '(k, pmap) => quoted k ++ lit ": " ++ quoted (percent_s (pmap x))) dpx).
  (** the comma before the attributes, if any, graph_dp.py:17-26, 125-146 *)
  Definition json_sep {X} (dpx : dict str (X -> option str)) : str := match dpx with [] => [] | _ => lit "," end.
  (** JSON_NODE_FORMAT, graph_dp.py:17-20 and 125-134 *)
  Definition json_node (dpv : dict str (nat -> option str)) (u : nat) : str :=
    lit "{" ++ nl ++ indent12 ++ quoted (lit "id") ++ lit ": " ++ str_nat u ++ json_sep dpv ++ nl ++
    indent12 ++ json_attributes u dpv ++ nl ++ lit "        }".
  (** JSON_EDGE_FORMAT, graph_dp.py:22-26 and 135-146 *)
  Definition json_edge (dpe : dict str (gedge -> option str)) (e : gedge) : str :=
    lit "{" ++ nl ++ indent12 ++ quoted (lit "source") ++ lit ": " ++ str_nat (source e) ++ lit "," ++ nl ++
    indent12 ++ quoted (lit "target") ++ lit ": " ++ str_nat (target e) ++ json_sep dpe ++ nl ++
    indent12 ++ json_attributes e dpe ++ nl ++ lit "        }".
  (** the lists of vertices and of edges, graph_dp.py:125, 135 *)
  Definition json_list (l : list str) : str := lit "[" ++ nl ++ lit "        " ++ join (lit ", ") l ++ nl ++ lit "    ]".
  (** GraphDp.to_json, graph_dp.py:104-148, JSON_GRAPH_FORMAT: graph_dp.py:11-15 *)
  Definition GraphDp_to_json (d : graph_dp) (vs : option (list nat)) (es : option (list gedge)) : str :=
    let vs := match vs with Some vs => vs | None => vertices end in
    let es := match es with Some es => es | None => edges end in
    lit "{" ++ nl ++ lit "    " ++ quoted (lit "graph_type") ++ lit ": " ++ quoted (graphviz_type directed) ++ lit "," ++ nl ++
    lit "    " ++ quoted (lit "vertices") ++ lit ": " ++ json_list (map (json_node (gdp_dpv d)) vs) ++ lit "," ++ nl ++
    lit "    " ++ quoted (lit "edges") ++ lit ": " ++ json_list (map (json_edge (gdp_dpe d)) es) ++ nl ++ lit "}".
End GraphDp.
