(** Specification of the histories of an IncidenceNodeAutomaton: the states, the transitions and the symbols are those of
    [nspec] (AutomatonSpec.v); in addition, the initial state and the final states. *)
From Verif Require Import Base Graph Automaton AutomatonSpec NodeAut.

Section Spec.
  Context {A : Type} {EA : EqDec A}.
  Record vspec := VS { vs_graph : nspec A; vs_q0 : option nat; vs_final : nat -> bool }.
  Definition vs_init : vspec := VS ns_init (Some 0) (fun _ => false).
  (** The call that changes the graph, if it is one of the four of [nspec] *)
  Definition graph_call (op : nvop A) : option (nop A) :=
    match op with
    | VAddVertex a => Some (NAddVertex a)
    | VAddEdge q r => Some (NAddEdge q r)
    | VRemoveEdge e => Some (NRemoveEdge e)
    | VRemoveVertex u => Some (NRemoveVertex u)
    | _ => None
    end.
  Definition vs_step (s : vspec) (op : nvop A) : vspec * aout (option A) :=
    match op with
    | VSetInitial q true => (VS (vs_graph s) q (vs_final s), AOutUnit)
    | VSetInitial q false => (VS (vs_graph s) (if eqb (vs_q0 s) q then None else vs_q0 s) (vs_final s), AOutUnit)
    | VSetFinal q b => (VS (vs_graph s) (vs_q0 s) (fun x => if x =? q then b else vs_final s x), AOutUnit)
    (* no state, no transition, states are numbered from 0 again; but the symbols stay *)
    | VClear => (VS (NS 0 [] [] (ns_sym (vs_graph s))) (vs_q0 s) (vs_final s), AOutUnit)
    | _ =>
        match graph_call op with
        | Some o => let '(n, out) := ns_step (vs_graph s) o in (VS n (vs_q0 s) (vs_final s), out)
        | None => (s, AOutUnit)
        end
    end.
  Fixpoint vdisciplined (s : vspec) (ops : list (nvop A)) : Prop :=
    match ops with
    | [] => True
    | op :: ops' =>
        match graph_call op with Some o => ns_disciplined (vs_graph s) o | None => True end /\
        vdisciplined (fst (vs_step s op)) ops'
    end.
End Spec.
Arguments vspec : clear implicits.
