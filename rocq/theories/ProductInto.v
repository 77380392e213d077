(** Model of the argument [g12] of deterministic_intersection and deterministic_union: the caller gives the
    automaton in which the product is built. *)
From Verif Require Import Base Graph Automaton PBFS.

Section M.
  Context {A : Type} `{EqDec A}.

  (** [if not g12: g12 = Automaton()], deterministic_intersection.py:75-76, deterministic_union.py:74-75. The
      classes of automata define neither __bool__ nor __len__, so that only None is false. *)
  Definition given_or_new (arg : option (aut A)) : aut A := match arg with Some g12 => g12 | None => A_init 0 end.

  (** deterministic_intersection with [g12] given and the default [vis], deterministic_intersection.py:58-89. [g12] is
      another object than [g1] and [g2]. *)
  Definition deterministic_intersection_in (g1 g2 : aut A) (arg : option (aut A)) (ord : set_order A) (fuel : nat)
      : option (aut A * res unit) :=
    match pbfs (fun _ => g1) g2 ord no_vertex (inter_edge g1 g2) no_vertex inter_push fuel (given_or_new arg, []) with
    | None => None
    | Some ((g12, _), r) => Some (g12, r)
    end.

  (** deterministic_union with [g12] given and the default [vis], deterministic_union.py:56-79. *)
  Definition deterministic_union_in (g1 g2 : aut A) (arg : option (aut A)) (ord : set_order A) (fuel : nat)
      : option (aut A * res unit) :=
    match pbfs (fun _ => g1) g2 ord no_vertex (add_product_edge orb g1 g2) no_vertex always_push fuel (given_or_new arg, []) with
    | None => None
    | Some ((g12, _), r) => Some (g12, r)
    end.
End M.
