(** Model of read_graphviz with a visitor that overrides on_install_vertex_property and on_install_edge_property
    (graphviz.py:19-163) and of read_graphviz_dp (graphviz.py:170-215). *)
From Coq Require Import String.
From Verif Require Import Str Regexp Graph Graphviz Base.
Open Scope string_scope.
Open Scope nat_scope.
Open Scope list_scope.

(** The text matched by [.*\]] in [.*\]\s*;] at the start of [s]: the dot is greedy and excludes "\n" (PATTERN_OPTS,
    graphviz.py:110-117). *)
Fixpoint opts_body (s : str) : option str :=
  match s with
  | [] => None
  | c :: s' =>
      match (if eqb c 10%N then None else opts_body s') with
      | Some b => Some (c :: b)
      | None => if eqb c (ch "]") && match_semicolon s' then Some [c] else None
      end
  end.
(** The match of [\s* P\s*;] where [P] is the optional group [\[.*\]] (graphviz.py:110-117): None if [s] does not start
    with it, otherwise the group, which is None in Python when it takes no part in the match. *)
Definition opts_group (s : str) : option (option str) :=
  match skip_spaces s with
  | c :: s' =>
      match (if eqb c (ch "[") then opts_body s' else None) with
      | Some b => Some (Some (c :: b))
      | None => if match_semicolon s then Some None else None
      end
  | [] => None
  end.
(** RE_LINE_VERTEX.match: groups 1 and 2, graphviz.py:151-154 *)
Definition match_vertex_opts (s : str) : option (str * option str) :=
  match span digit09 s with
  | ([], _) => None
  | (u, r) => match opts_group r with Some o => Some (u, o) | None => None end
  end.
(** RE_LINE_EDGE.match: groups 1, 2 and 3, graphviz.py:157-161 *)
Definition match_edge_opts (s : str) : option (str * str * option str) :=
  match span digit09 s with
  | ([], _) => None
  | (u, r) =>
      match skip_spaces r with
      | a :: b :: r' =>
          if eqb a (ch "-") && eqb b (ch ">") then
            match span digit09 (skip_spaces r') with
            | ([], _) => None
            | (v, r'') => match opts_group r'' with Some o => Some (u, v, o) | None => None end
            end
          else None
      | _ => None
      end
  end.

Section ReadVis.
  (** g.add_edge: that of DirectedGraph or that of UndirectedGraph, called in graphviz.py:98 *)
  Variable add_edge : graph -> nat -> nat -> graph * res (gedge * bool).
  (** HTMLParser of the standard library (not modelled): the attributes of each call to handle_starttag made by
      super().feed (graphviz.py:38); the value of an attribute may be None. *)
  Variable starttags : str -> list (list (str * option str)).
  (** what the visitor keeps in its own attributes (graphviz.py:73-77) *)
  Variable H : Type.
  (** the overridden methods, graphviz.py:73-77; they do not modify the graph (simplification) *)
  Variable on_install_vertex_property : H -> nat -> str -> option str -> H * res unit.
  Variable on_install_edge_property : H -> gedge -> str -> option str -> H * res unit.
  (** the graph, the aliases of ReadGraphvizVisitor (graphviz.py:71) and the attributes of the subclass *)
  Notation vstate := (graph * dict str nat * H)%type.

  (** [opts[1:-1]], graphviz.py:37 *)
  Definition inside (opts : str) : str := removelast (tl opts).
  (** GraphvizOptsParser.handle_starttag, graphviz.py:31-33 *)
  Definition handle_starttag (d : dict str (option str)) (attrs : list (str * option str)) : dict str (option str) :=
    fold_left (fun d kv => dset d (fst kv) (snd kv)) attrs d.
  (** GraphvizOptsParser: the constructor (23-29), feed (35-38) and items (40-41), graphviz.py *)
  Definition parser_items (opts : option str) : list (str * option str) :=
    match opts with
    | None | Some [] => []
    | Some opts => fold_left handle_starttag (starttags (lit "<fake_tag " ++ inside opts ++ lit ">")) []
    end.

  (** ReadGraphvizVisitor.on_vertex, graphviz.py:79-86 *)
  Definition vis_on_vertex (s : vstate) (u_alias : str) (opts : option str) : vstate * res unit :=
    let '(g, al, h) := s in
    match G_add_vertex g with
    | (g, Ok u) =>
        let '(h, r) := foreach (fun h kv => on_install_vertex_property h u (fst kv) (snd kv)) h (parser_items opts) in
        ((g, dset al u_alias u, h), r)
    | (g, Raise ex) => ((g, al, h), Raise ex)
    end.
  (** ReadGraphvizVisitor.on_edge, graphviz.py:88-104 *)
  Definition vis_on_edge (s : vstate) (u_alias v_alias : str) (opts : option str) : vstate * res unit :=
    let '(g, al, h) := s in
    match dget al u_alias, dget al v_alias with
    | Some u, Some v =>
        match add_edge g u v with
        | (g, Ok (e, added)) =>
            if added then
              let '(h, r) := foreach (fun h kv => on_install_edge_property h e (fst kv) (snd kv)) h (parser_items opts) in
              ((g, al, h), r)
            else ((g, al, h), Raise AssertionError)
        | (g, Raise ex) => ((g, al, h), Raise ex)
        end
    | _, _ => (s, Raise KeyError)
    end.
  (** The body of the loop of read_graphviz, graphviz.py:149-163; on_else does nothing (graphviz.py:55-56) *)
  Definition vis_read_line (s : vstate) (line : str) : vstate * res unit :=
    let line := strip line in
    match match_vertex_opts line with
    | Some (u_alias, opts) => vis_on_vertex s u_alias opts
    | None =>
        match match_edge_opts line with
        | Some (u_alias, v_alias, opts) => vis_on_edge s u_alias v_alias opts
        | None => (s, Ok tt)
        end
    end.
  (** read_graphviz(dot, g, vis), graphviz.py:124-163, where [vis] was just created; [h]: its attributes *)
  Definition read_graphviz_vis (dot : str) (g : graph) (h : H) : graph * H * res unit :=
    let '((g, _, h), r) := foreach vis_read_line (g, [], h) (splitlines dot) in (g, h, r).

End ReadVis.

(** ReadGraphvizVisitor.__init__, graphviz.py:66-71, called with [n] arguments besides self: Python raises TypeError when
    there is one, as the signature has no parameter for it. The result: the aliases. *)
Definition ReadGraphvizVisitor_init (n : nat) : res (dict str nat) :=
  match n with 0 => Ok [] | _ => Raise TypeError end.
(** dpv or dpe: None, or a dict from the attribute names to maps; these maps are dicts here (simplification: any object
    with __setitem__ would do), graphviz.py:194-198 *)
Notation dynprops K := (option (dict str (dict K (option str)))).
(** ReadGraphvizDpVisitor.on_install_vertex_property and on_install_edge_property, graphviz.py:183-191: None and an empty
    dict are false in Python *)
Definition dp_install {K} `{EqDec K} (dp : dynprops K) (x : K) (key : str) (value : option str) : dynprops K * res unit :=
  match dp with
  | None | Some [] => (dp, Ok tt)
  | Some d =>
      match dget d key with
      | None => (dp, Raise KeyError)
      | Some [] => (dp, Ok tt)
      | Some pmap => (Some (dset d key (dset pmap x value)), Ok tt)
      end
  end.
(** The two maps kept by the visitor, graphviz.py:180-181 *)
Notation dpstate := (dynprops nat * dynprops gedge)%type.
(** on_install_vertex_property, graphviz.py:183-186 *)
Definition dp_vertex (dp : dpstate) (u : nat) (key : str) (value : option str) : dpstate * res unit :=
  let '(dpv, r) := dp_install (fst dp) u key value in ((dpv, snd dp), r).
(** on_install_edge_property, graphviz.py:188-191 *)
Definition dp_edge (dp : dpstate) (e : gedge) (key : str) (value : option str) : dpstate * res unit :=
  let '(dpe, r) := dp_install (snd dp) e key value in ((fst dp, dpe), r).
(** ReadGraphvizDpVisitor.__init__(g, dpv, dpe), graphviz.py:178-181: super().__init__(g) passes one argument. *)
Definition ReadGraphvizDpVisitor_init (dp : dpstate) : res (dict str nat * dpstate) :=
  rbind (ReadGraphvizVisitor_init 1) (fun aliases => Ok (aliases, dp)).
(** read_graphviz_dp, graphviz.py:194-215 *)
Definition read_graphviz_dp (add_edge : graph -> nat -> nat -> graph * res (gedge * bool)) (starttags : str -> list (list (str * option str))) (dot : str) (g : graph) (dp : dpstate) : graph * dpstate * res unit :=
  match ReadGraphvizDpVisitor_init dp with
  | Ok (aliases, h) => let '((g, _, h), r) := foreach (vis_read_line add_edge starttags dpstate dp_vertex dp_edge) (g, aliases, h) (splitlines dot) in (g, h, r)
  | Raise ex => (g, dp, Raise ex)
  end.
