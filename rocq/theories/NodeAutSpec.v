(** Specification of the node automata: vertices that carry symbols, transitions that carry the symbol of their target. *)
From Verif Require Import Base Graph Automaton AutomatonSpec NodeAut.

Section S.
  Context {A : Type} {EA : EqDec A}.
  Record nstate := NSt { nv_next : nat; nv_V : list nat; nv_T : list (edge (option A)); nv_sym : nat -> option A; nv_q0 : option nat; nv_final : nat -> bool }.
  Definition nv_init (n : nat) : nstate := NSt n (seq 0 n) [] (fun _ => None) (Some 0) (fun _ => false).
  Definition nv_step (s : nstate) (op : nvop A) : nstate * aout (option A) :=
    let '(NSt k V T sym q0 f) := s in
    match op with
    | VAddVertex a => (NSt (S k) (V ++ [k]) T (match a with None => sym | _ => fun x => if x =? k then a else sym x end) q0 f, AOutVertex k)
    | VAddEdge q r =>
        if mem q V then
          match lookup T q (sym r) with
          | Some _ => (s, AOutEdge None false)
          | None => (NSt k V (T ++ [Edge q r (sym r)]) sym q0 f, AOutEdge (Some (Edge q r (sym r))) true)
          end
        else (s, AOutRaise KeyError)
    (* the transition from the source whose symbol is that of the target, whatever its target *)
    | VRemoveEdge e => (NSt k V (drop_key (source e) (sym (target e)) T) sym q0 f, AOutUnit)
    | VRemoveVertex u =>
        if mem u V then (NSt k (filter (fun v => negb (v =? u)) V) (drop_incident u T) sym q0 f, AOutUnit)
        else (s, AOutRaise KeyError)
    | VSetInitial q b => (NSt k V T sym (if b then q else if eqb q0 q then None else q0) f, AOutUnit)
    | VSetFinal q b => (NSt k V T sym q0 (fun x => if x =? q then b else f x), AOutUnit)
    | VClear => (NSt 0 [] [] sym q0 f, AOutUnit)
    end.
  (** The targets of the edges that are added exist. *)
  Fixpoint nv_disciplined (s : nstate) (ops : list (nvop A)) : Prop :=
    match ops with
    | [] => True
    | op :: ops' => match op with VAddEdge q r => In r (nv_V s) | _ => True end /\ nv_disciplined (fst (nv_step s op)) ops'
    end.
End S.
Arguments nstate : clear implicits.
