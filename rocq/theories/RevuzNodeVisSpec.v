(** What the visitor of revuz_minimize is told on an IncidenceNodeAutomaton (C144). *)
From Verif Require Import Base Graph Automaton AutomatonSpec Revuz RevuzSpec RevuzVis RevuzNodeVis.

Section Told.
  Context {A L : Type}.
  (** the symbols, the labels and the final flags of the states *)
  Variables (sym : nat -> option A) (lab : nat -> L) (final : nat -> bool).
  (** the automaton has these states, with their symbols, and these transitions *)
  Definition nshows (g : naut A) (V : list nat) (E : list (edge (option A))) : Prop :=
    (forall q, In q (NA_vertices g) <-> In q V) /\ (forall q, In q V -> na_symbol g q = sym q) /\ forall e, In e (NA_edges g) <-> In e E.
  (** From the transitions [E], the calls [tr] move transitions one by one from the target q2 to the target q1; [E'] are the transitions afterwards. At each call the transition has just been moved. *)
  Inductive nmoved (V : list nat) (q1 q2 : nat) : list (edge (option A)) -> nrtrace A -> list (edge (option A)) -> Prop :=
  | nmoved_nil E : nmoved V q1 q2 E [] E
  | nmoved_cons E p a E1 g tr E2 : In (Edge p q2 a) E -> (forall e, In e E1 <-> (In e E /\ e <> Edge p q2 a) \/ e = Edge p q1 a) -> nshows g V E1 ->
      nmoved V q1 q2 E1 tr E2 -> nmoved V q1 q2 E ((MoveTransition (Edge p q2 a) (Some (Edge p q1 a)), g) :: tr) E2.
  (** From the states and transitions (V, E), the calls describe merges of two states with the same symbol, the same label, the same flag and the same transitions: before the merge, at each moved transition,
      when the second state, to which no transition leads any more, is about to be removed with the transitions that leave it, and after that. *)
  Inductive ntold : list nat -> list (edge (option A)) -> nrtrace A -> list nat -> list (edge (option A)) -> Prop :=
  | ntold_nil V E : ntold V E [] V E
  | ntold_merge V E q1 q2 g0 moves E1 g1 V2 E2 g2 tr V' E' :
      q1 < q2 -> In q1 V -> In q2 V -> sym q1 = sym q2 /\ lab q1 = lab q2 /\ final q1 = final q2 -> (forall a r, In (Edge q1 r a) E <-> In (Edge q2 r a) E) ->
      nshows g0 V E -> nmoved V q1 q2 E moves E1 -> (forall e, In e E1 -> target e <> q2) -> nshows g1 V E1 ->
      (forall q, In q V2 <-> In q V /\ q <> q2) -> (forall e, In e E2 <-> In e E1 /\ source e <> q2) -> nshows g2 V2 E2 -> ntold V2 E2 tr V' E' ->
      ntold V E ((MergingStates q1 q2, g0) :: moves ++ (RemoveVertex q2, g1) :: (StatesMerged q1 q2, g2) :: tr) V' E'.
  (** the states removed, in order *)
  Fixpoint nremoved (tr : nrtrace A) : list nat := match tr with [] => [] | (StatesMerged _ q2, _) :: tr => q2 :: nremoved tr | _ :: tr => nremoved tr end.
End Told.
