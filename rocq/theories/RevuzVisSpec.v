(** What the visitor of revuz_minimize is told (C117). *)
From Verif Require Import Base Graph Automaton AutomatonSpec Revuz RevuzSpec RevuzVis.

Section Told.
  Context {A : Type}.
  (** the automaton has these states and these transitions *)
  Definition shows (g : iaut A) (V : list nat) (E : list (edge A)) : Prop :=
    (forall q, In q (IA_vertices g) <-> In q V) /\ forall e, In e (IA_edges g) <-> In e E.
  (** From the transitions [E], the calls [tr] move transitions one by one from the target q2 to the target q1; [E'] are the transitions afterwards. At each call the transition has just been moved. *)
  Inductive moved (V : list nat) (q1 q2 : nat) : list (edge A) -> rtrace A -> list (edge A) -> Prop :=
  | moved_nil E : moved V q1 q2 E [] E
  | moved_cons E p a E1 g tr E2 : In (Edge p q2 a) E -> (forall e, In e E1 <-> (In e E /\ e <> Edge p q2 a) \/ e = Edge p q1 a) -> shows g V E1 ->
      moved V q1 q2 E1 tr E2 -> moved V q1 q2 E ((MoveTransition (Edge p q2 a) (Some (Edge p q1 a)), g) :: tr) E2.
  (** From the states and transitions (V, E), the calls describe merges of two states with the same flag and the same transitions: before the merge, at each moved transition, when the second state, to which no
      transition leads any more, is about to be removed with the transitions that leave it, and after that. *)
  Inductive told (final : nat -> bool) : list nat -> list (edge A) -> rtrace A -> list nat -> list (edge A) -> Prop :=
  | told_nil V E : told final V E [] V E
  | told_merge V E q1 q2 g0 moves E1 g1 V2 E2 g2 tr V' E' :
      q1 < q2 -> In q1 V -> In q2 V -> final q1 = final q2 -> (forall a r, In (Edge q1 r a) E <-> In (Edge q2 r a) E) ->
      shows g0 V E -> moved V q1 q2 E moves E1 -> (forall e, In e E1 -> target e <> q2) -> shows g1 V E1 ->
      (forall q, In q V2 <-> In q V /\ q <> q2) -> (forall e, In e E2 <-> In e E1 /\ source e <> q2) -> shows g2 V2 E2 -> told final V2 E2 tr V' E' ->
      told final V E ((MergingStates q1 q2, g0) :: moves ++ (RemoveVertex q2, g1) :: (StatesMerged q1 q2, g2) :: tr) V' E'.
  (** the states removed, in order *)
  Fixpoint removed (tr : rtrace A) : list nat := match tr with [] => [] | (StatesMerged _ q2, _) :: tr => q2 :: removed tr | _ :: tr => removed tr end.
End Told.
