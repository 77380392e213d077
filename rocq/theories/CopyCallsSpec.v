(** What is said of the callbacks of graph_copy and automaton_copy. *)
From Verif Require Import Base.

Section Spec.
  Context {E E' G : Type}.
  (** a call of callback_dup_vertex(u, g, u_dup, g_dup) or of callback_dup_edge(e, g, e_dup, g_dup) *)
  Inductive dup_call := DupVertex (u u_dup : nat) (g_dup : G) | DupEdge (e : E) (e_dup : E') (g_dup : G).
  (** the vertices, the edges told by the calls, each with its copy *)
  Definition told_vertices (l : list dup_call) : list (nat * nat) := flat_map (fun c => match c with DupVertex u u' _ => [(u, u')] | _ => [] end) l.
  Definition told_edges (l : list dup_call) : list (E * E') := flat_map (fun c => match c with DupEdge e e' _ => [(e, e')] | _ => [] end) l.
  Definition given (c : dup_call) : G := match c with DupVertex _ _ h => h | DupEdge _ _ h => h end.

  (** These calls made one after the other, until one raises; a callback that is None is not called. *)
  Fixpoint perform {St} (on_vertex : option (nat -> nat -> G -> St -> res St)) (on_edge : option (E -> E' -> G -> St -> res St)) (l : list dup_call) (user : St) : res St :=
    match l with
    | [] => Ok user
    | c :: l' =>
        match match c with
              | DupVertex u u' h => match on_vertex with None => Ok user | Some f => f u u' h user end
              | DupEdge e e' h => match on_edge with None => Ok user | Some f => f e e' h user end
              end with
        | Ok user' => perform on_vertex on_edge l' user'
        | Raise x => Raise x
        end
    end.

  (** The calls come in order: first the source; each other vertex just before the first edge to it; an edge after its ends. Each call gives
      g_dup as the calls have told it so far, this one included. *)
  Definition in_order (source target : E -> nat) (s : nat) (shows : G -> list nat -> list E' -> Prop) (l : list dup_call) : Prop :=
    (exists s' h l', l = DupVertex s s' h :: l') /\
    forall l1 c l2, l = l1 ++ c :: l2 ->
      shows (given c) (map snd (told_vertices (l1 ++ [c]))) (map snd (told_edges (l1 ++ [c]))) /\
      match c with
      | DupVertex u _ _ => ~ In u (map fst (told_vertices l1)) /\ (l1 = [] \/ exists e e' h l2', l2 = DupEdge e e' h :: l2' /\ target e = u)
      | DupEdge e _ _ => ~ In e (map fst (told_edges l1)) /\ In (source e) (map fst (told_vertices l1)) /\ In (target e) (map fst (told_vertices l1))
      end.
End Spec.
Arguments dup_call : clear implicits.
