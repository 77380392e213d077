(** What the style and the singletons should be, read in the history of the calls only. *)
From Coq Require Import String.
From Verif Require Import Str Graph Graphviz GraphvizSpec GraphDp GvStyle.
From Verif Require Import Base.
Open Scope string_scope.
Open Scope nat_scope.
Open Scope list_scope.

(** The last color set, by default the initial one *)
Definition fg_of (ops : list style_op) : str :=
  fold_left (fun c op => match op with SetFg c' => c' | _ => c end) ops (lit "black").
Definition bg_of (ops : list style_op) : str :=
  fold_left (fun c op => match op with SetBg c' => c' | _ => c end) ops (lit "transparent").

(** The attributes of the graph, of the nodes and of the edges for two colors, and their text *)
Definition graph_attrs (fg bg : str) : dict str str := [(lit "fontcolor", fg); (lit "bgcolor", bg); (lit "rankdir", lit "LR")].
Definition node_attrs (fg : str) : dict str str :=
  [(lit "color", fg); (lit "fontcolor", fg); (lit "fillcolor", lit "transparent"); (lit "shape", lit "circle")].
Definition edge_attrs (fg : str) : dict str str := [(lit "color", fg); (lit "fontcolor", fg)].
Definition style_text (fg bg : str) : str :=
  lit "graph [fontcolor=""" ++ fg ++ lit """; bgcolor=""" ++ bg ++ lit """; rankdir=""LR""]; " ++
  lit "node [color=""" ++ fg ++ lit """; fontcolor=""" ++ fg ++ lit """; fillcolor=""transparent""; shape=""circle""]; " ++
  lit "edge [color=""" ++ fg ++ lit """; fontcolor=""" ++ fg ++ lit """]".

(** The strings appended to extra_style *)
Definition extras_of (ops : list style_op) : list str := flat_map (fun op => match op with AddExtra x => [x] | _ => [] end) ops.
(** The text of the style, followed by the strings appended *)
Definition full_text (ops : list style_op) : str := style_text (fg_of ops) (bg_of ops) ++ flat_map (fun x => lit "; " ++ x) (extras_of ops).

(** Two texts with the same colors *)
Definition colors_set (ops : list style_op) : list str :=
  flat_map (fun op => match op with SetFg c | SetBg c => [c] | AddExtra _ | NewDp _ _ _ => [] end) ops.

(** The first call of a class whose constructor does not raise: its index and its arguments *)
Fixpoint first_made {Cls Args} `{EqDec Cls} (construct : Cls -> Args -> option exn) (i : nat) (calls : list (Cls * Args)) (cls : Cls) : option (nat * Args) :=
  match calls with
  | [] => None
  | (c, a) :: calls' => if eqb c cls then match construct c a with None => Some (i, a) | Some _ => first_made construct (S i) calls' cls end
                        else first_made construct (S i) calls' cls
  end.
