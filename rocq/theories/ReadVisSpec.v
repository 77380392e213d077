(** Specification of the options of the lines read by read_graphviz. *)
From Coq Require Import String.
From Verif Require Import Str Regexp Graph Graphviz GraphvizSpec ReadDotSpec Base.
Open Scope string_scope.
Open Scope nat_scope.
Open Scope list_scope.

(** [tail_is r o]: [r] is made of spaces, the options [o] (empty if there is none), spaces, a semicolon and anything else. *)
Definition tail_is (r o : str) : Prop := exists sp1 sp2 rest, r = sp1 ++ o ++ sp2 ++ lit ";" ++ rest /\ options o /\ spaces sp1 /\ spaces sp2.
(** the longest such options *)
Definition carries (r o : str) : Prop := tail_is r o /\ forall o', tail_is r o' -> List.length o' <= List.length o.

(** The meaning of one line with its options *)
Inductive oitem := OVertex (u o : str) | OEdge (u v o : str) | ONone.
Definition item_only (it : oitem) : item := match it with OVertex u _ => IVertex u | OEdge u v _ => IEdge u v | ONone => INone end.
Definition omeans (l : str) (it : oitem) : Prop :=
  match it with
  | OVertex u o => exists sp r, l = sp ++ u ++ r /\ spaces sp /\ number u /\ carries r o
  | OEdge u v o => exists sp sp1 sp2 r, l = sp ++ u ++ sp1 ++ lit "->" ++ sp2 ++ v ++ r /\ spaces sp /\ number u /\ spaces sp1 /\ spaces sp2 /\ number v /\ carries r o
  | ONone => means l INone
  end.

(** The calls to the visitor: the vertices are numbered in the order of their lines; [es] are the edges in the order of their lines. *)
Inductive call := VCall (u : nat) (k : str) (v : option str) | ECall (e : gedge) (k : str) (v : option str).
Fixpoint calls (attrs : str -> list (str * option str)) (n : nat) (its : list oitem) (es : list gedge) : list call :=
  match its, es with
  | OVertex _ o :: its, es => map (fun kv => VCall n (fst kv) (snd kv)) (attrs o) ++ calls attrs (S n) its es
  | OEdge _ _ o :: its, e :: es => map (fun kv => ECall e (fst kv) (snd kv)) (attrs o) ++ calls attrs n its es
  | ONone :: its, es => calls attrs n its es
  | _, _ => []
  end.

(** The last value given to [k] *)
Fixpoint last_value (k : str) (given : list (str * option str)) : option (option str) :=
  match given with
  | [] => None
  | (k', v) :: given => match last_value k given with Some w => Some w | None => if eq_dec k k' then Some v else None end
  end.
