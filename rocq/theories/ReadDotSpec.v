(** Specification of the texts understood by read_graphviz. *)
From Coq Require Import String.
From Verif Require Import Str Regexp Graph Graphviz GraphvizSpec Base.
Open Scope string_scope.
Open Scope nat_scope.
Open Scope list_scope.

(** [lines_of s ls]: [ls] are the lines of [s]. A line ends at a line boundary, the pair "\r\n" being one boundary, or at the end of [s] if it is not empty. *)
Definition boundary (c : char) : Prop := In c [10; 11; 12; 13; 28; 29; 30; 133; 8232; 8233]%N.
Inductive lines_of : str -> list str -> Prop :=
| lines_nil : lines_of [] []
| lines_last l : one_line l -> l <> [] -> lines_of l [l]
| lines_crlf l s ls : one_line l -> lines_of s ls -> lines_of (l ++ [13; 10]%N ++ s) (l :: ls)
| lines_end l c s ls : one_line l -> boundary c -> ~ (c = 13%N /\ exists s', s = 10%N :: s') -> lines_of s ls -> lines_of (l ++ [c] ++ s) (l :: ls).

Definition number (u : str) : Prop := u <> [] /\ Forall (fun c => In c (lit "0123456789")) u.
(** Options: nothing, or something between brackets *)
Definition options (o : str) : Prop := o = [] \/ exists body, o = lit "[" ++ body ++ lit "]" /\ ~ In 10%N body.
(** 12 [...] ; *)
Definition vertex_line (l u : str) : Prop := exists sp0 sp1 o sp2 rest,
  l = sp0 ++ u ++ sp1 ++ o ++ sp2 ++ lit ";" ++ rest /\ number u /\ options o /\ spaces sp0 /\ spaces sp1 /\ spaces sp2.
(** 12 -> 345 [...] ; *)
Definition edge_line (l u v : str) : Prop := exists sp0 sp1 sp2 sp3 o sp4 rest,
  l = sp0 ++ u ++ sp1 ++ lit "->" ++ sp2 ++ v ++ sp3 ++ o ++ sp4 ++ lit ";" ++ rest /\ number u /\ number v /\ options o /\ spaces sp0 /\ spaces sp1 /\ spaces sp2 /\ spaces sp3 /\ spaces sp4.

Inductive item := IVertex (u : str) | IEdge (u v : str) | INone.
(** The meaning of one line *)
Definition means (l : str) (it : item) : Prop :=
  match it with
  | IVertex u => vertex_line l u
  | IEdge u v => edge_line l u v
  | INone => (forall u, ~ vertex_line l u) /\ forall u v, ~ edge_line l u v
  end.

Definition is_vertex (it : item) : bool := match it with IVertex _ => true | _ => false end.
(** The vertices are numbered in the order of their lines *)
Definition num_vertex_lines (its : list item) : nat := List.length (filter is_vertex its).
(** After [its], the name [u] stands for the vertex of the last line declaring [u]. *)
Definition denotes (its : list item) (u : str) (i : nat) : Prop :=
  exists before after, its = before ++ IVertex u :: after /\ ~ In (IVertex u) after /\ i = num_vertex_lines before.
(** [builds its A]: every name used in an edge line of [its] is declared before that line, and [A] are the edges. *)
Inductive builds : list item -> list (nat * nat) -> Prop :=
| builds_nil : builds [] []
| builds_vertex its A u : builds its A -> builds (its ++ [IVertex u]) A
| builds_none its A : builds its A -> builds (its ++ [INone]) A
| builds_edge its A u v i j : builds its A -> denotes its u i -> denotes its v j -> builds (its ++ [IEdge u v]) (A ++ [(i, j)]).
