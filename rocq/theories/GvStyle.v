(** Model of the class GraphvizStyle, src/pybgl/graphviz_impl.py:17-112, of its metaclass, src/pybgl/singleton.py, and of
    what the other functions read in it. *)
From Coq Require Import String.
From Verif Require Import Str Graph Graphviz GraphDp.
From Verif Require Import Base.
Open Scope string_scope.
Open Scope nat_scope.
Open Scope list_scope.

(** The class attributes graph, node, edge, extra_style, graphviz_impl.py:36-51: one global state *)
Record gv_style := mkStyle { st_graph : dict str str; st_node : dict str str; st_edge : dict str str; st_extra : list str }.
(** The initial values, graphviz_impl.py:36-51 *)
Definition style0 : gv_style := mkStyle style_graph style_node style_edge [].

(** set_fg_color, graphviz_impl.py:53-66 *)
Definition set_fg_color (s : gv_style) (color : str) : gv_style :=
  mkStyle (dset (st_graph s) (lit "fontcolor") color)
    (dset (dset (st_node s) (lit "color") color) (lit "fontcolor") color)
    (dset (dset (st_edge s) (lit "color") color) (lit "fontcolor") color) (st_extra s).
(** set_bg_color, graphviz_impl.py:68-77 *)
Definition set_bg_color (s : gv_style) (color : str) : gv_style :=
  mkStyle (dset (st_graph s) (lit "bgcolor") color) (st_node s) (st_edge s) (st_extra s).
(** __str__, graphviz_impl.py:99-112; attributes_to_dot has the body of graphviz_dx_to_dot. *)
Definition style_str (s : gv_style) : str :=
  join (lit "; ") ([graphviz_dx_to_dot (lit "graph") (st_graph s); graphviz_dx_to_dot (lit "node") (st_node s);
                    graphviz_dx_to_dot (lit "edge") (st_edge s)] ++ st_extra s).

(** GraphDp.__init__, graph_dp.py:35-70, in a state of the class GraphvizStyle: the dictionaries are copied. *)
Definition GraphDp_init_in (s : gv_style) dpv dpe dg dv de extra_style : graph_dp :=
  mkGraphDp (or_default dpv []) (or_default dpe []) (or_default dg (st_graph s)) (or_default dv (st_node s))
    (or_default de (st_edge s)) (or_default extra_style (st_extra s)).

(** to_dot, graphviz_impl.py:363-439, in a state of the class GraphvizStyle: default_graphviz_style (graphviz_impl.py:230-238), called
    when graphviz_style is None (graphviz_impl.py:411-412), is the string of the current style. *)
Definition to_dot_in {D} (s : gv_style) (tags : list str) (directed : bool) (vs : list nat) (es : list (edge D)) (o : dot_args_of D) : str :=
  to_dot tags directed vs es
    (DotArgs (dg o) (extra_style o) (dv o) (de o) (dpv o) (dpe o)
       (Some (match graphviz_style o with Some x => x | None => style_str s end))).

(** Histories: colors are set, strings are appended to GraphvizStyle.extra_style and GraphDp objects are created; the state also keeps the objects, the oldest first (no counterpart in /repo: the callers of graphviz_impl.py:53-77 and graph_dp.py:35-70). *)
Inductive style_op :=
| SetFg (color : str)
| SetBg (color : str)
| AddExtra (x : str)
| NewDp (dg dv de : option (dict str str)).
(** One call, graphviz_impl.py:53-77, graph_dp.py:35-70; extra_style is a public list, graphviz_impl.py:51, to which the caller appends. *)
Definition style_step (st : gv_style * list graph_dp) (op : style_op) : gv_style * list graph_dp :=
  let '(s, ds) := st in
  match op with
  | SetFg c => (set_fg_color s c, ds)
  | SetBg c => (set_bg_color s c, ds)
  | AddExtra x => (mkStyle (st_graph s) (st_node s) (st_edge s) (st_extra s ++ [x]), ds)
  | NewDp dg dv de => (s, ds ++ [GraphDp_init_in s None None dg dv de None])
  end.
(** The successive calls, from the initial state (graphviz_impl.py:36-51) *)
Definition style_run (ops : list style_op) : gv_style * list graph_dp := fold_left style_step ops (style0, []).

(** ** singleton.py *)
Section Singleton.
  Context {Cls Args : Type} `{EqDec Cls}.
  (** The constructor of a class either raises or makes a new object. An object is a class, the arguments given to its
      constructor, and the time of its creation, which is its identity. *)
  Variable construct : Cls -> Args -> option exn.
  (** an object made by [super().__call__], singleton.py:37-40 *)
  Record obj := Obj { obj_class : Cls; obj_args : Args; obj_time : nat }.
  (** s_instances, singleton.py:22; the clock counts the calls. *)
  Record sing := Sing { s_instances : dict Cls obj; clock : nat }.
  (** Singleton.__call__, singleton.py:24-41. A constructor which calls its own class is not modelled. *)
  Definition sing_call (s : sing) (cls : Cls) (args : Args) : sing * res obj :=
    match dget (s_instances s) cls with
    | Some o => (Sing (s_instances s) (S (clock s)), Ok o)
    | None =>
        match construct cls args with
        | Some ex => (Sing (s_instances s) (S (clock s)), Raise ex)
        | None => let o := Obj cls args (clock s) in
                  (Sing (dset (s_instances s) cls o) (S (clock s)), Ok o)
        end
    end.
  (** successive calls of Singleton.__call__, singleton.py:24-41 *)
  Fixpoint sing_run (s : sing) (calls : list (Cls * Args)) : sing * list (res obj) :=
    match calls with
    | [] => (s, [])
    | (cls, args) :: calls' =>
        let '(s1, r) := sing_call s cls args in
        let '(s2, rs) := sing_run s1 calls' in (s2, r :: rs)
    end.
End Singleton.
Arguments obj : clear implicits.
