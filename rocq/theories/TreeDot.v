(** Model of BKTree.to_dot and Ast.to_dot. *)
From Coq Require Import String.
From Verif Require Import Str Graph Automaton ShuntingYard BKTree Ast Graphviz GraphDp AutDot.
From Verif Require Import Base.
Open Scope string_scope.
Open Scope nat_scope.
Open Scope list_scope.

Section TreeDot.
  (** the order of the tags in GRAPHVIZ_HTML_TOKENIZER *)
  Variable tags : list str.

  (** In Graphviz.v a property map does not raise. The maps of BKTree (bk_tree.py:144) and Ast (shunting_yard_postfix.py:537-541) are
      ReadWriteAssocPropertyMap over a dict without default: the key of each vertex that is written is read, a missing key raises KeyError.
      The label of the caller, if there is one, replaces the map, which is then not read. *)
  Definition read_labels {D V} (k : kwargs_of D) (vertices : list nat) (labels : dict nat V) (s : str) : res str :=
    let given := match kw_dpv k with Given d => dmem d (lit "label") | _ => false end in
    let written := match kw_vs k with Some vs => vs | None => vertices end in
    if given || forallb (fun u => dmem labels u) written then Ok s else Raise KeyError.

  (** BKTree.to_dot, bk_tree.py:136-146, then Automaton.to_dot, automaton.py:308-326; [text]: [str] on an element. Simplification: no element is None. *)
  Definition bk_to_dot {X} (text : X -> str) (t : bktree X) (k : kwargs_of nat) : res str :=
    rbind (enrich_kwargs [(lit "label", fun u => option_map text (dget (bk_element t) u))] (kw_dpv k)) (fun dpv =>
    rbind (base_to_dot tags (A_vertices (bk_aut t)) (A_edges (bk_aut t)) (A_is_final (bk_aut t)) (fun e => Some (str_nat (A_label e))) (kw_set_dpv k dpv))
      (read_labels k (A_vertices (bk_aut t)) (bk_element t))).

  (** Ast.to_dot, shunting_yard_postfix.py:535-543, then Graph.to_dot, graph.py:375-383; [text]: [str] on a token. Positional arguments are not modelled. *)
  Definition Ast_to_dot {T} (text : T -> str) (t : ast T) (k : kwargs_of nat) : res str :=
    rbind (enrich_kwargs [(lit "label", fun u => option_map (fun a => str_nat u ++ lit " " ++ text a) (dget (ast_label t) u) : option str)] (kw_dpv k)) (fun dpv =>
    read_labels k (G_vertices (ast_graph t)) (ast_label t) (Graph_to_dot tags true (G_vertices (ast_graph t)) (G_edges (ast_graph t)) (kw_set_dpv k dpv))).
End TreeDot.
