(** Model of moore_determination (moore_determination.py:11-72) called with [dfa = IncidenceAutomaton()], and of
    hopcroft_minimize applied to what it returns. The case [dfa = None] is in Nfa.v; the text of the function is the
    same, the methods called are those of IncidenceAutomaton. *)
From Verif Require Import Base Graph Automaton Nfa Hopcroft.

Section M.
  Context {A : Type} `{EqDec A}.

  (** Automaton.set_final (automaton.py:267-277), inherited by IncidenceAutomaton. *)
  Definition IA_set_final (d : iaut A) (q : nat) (b : bool) : iaut A := mkIAut (A_set_final (ia_base d) q b) (ia_in d).

  (** dfa_add_state, moore_determination.py:35-39. *)
  Definition idfa_add_state (g : nfa A) (d : iaut A) (m : list (list nat * nat)) (qs : list nat)
      : iaut A * list (list nat * nat) * res nat :=
    match IA_add_vertex d with
    | (d, Raise e) => (d, m, Raise e)
    | (d, Ok q) => (if existsb (N_is_final g) qs then IA_set_final d q true else d, m ++ [(qs, q)], Ok q)
    end.

  (** the loop on the symbols, moore_determination.py:63-72. *)
  Fixpoint imoore_symbols (g : nfa A) (q : nat) (qs : list nat) (syms : list A) (d : iaut A)
      (m : list (list nat * nat)) (todo : list (list nat)) : option (iaut A * list (list nat * nat) * list (list nat) * res unit) :=
    match syms with
    | [] => Some (d, m, todo, Ok tt)
    | a :: syms' =>
        obind (N_step g qs a) (fun rs =>
          match (match fget m rs with
                 | Some r => (d, m, todo, Ok r)
                 | None => let '(d, m, o) := idfa_add_state g d m rs in (d, m, todo ++ [rs], o)
                 end) with
          | (d, m, todo, Raise e) => Some (d, m, todo, Raise e)
          | (d, m, todo, Ok r) =>
              match IA_add_edge d q r a with
              | (d, Raise e) => Some (d, m, todo, Raise e)
              | (d, Ok _) => imoore_symbols g q qs syms' d m todo
              end
          end)
    end.

  (** the main loop, moore_determination.py:55-72. *)
  Fixpoint imoore_loop (g : nfa A) (complete : bool) (opop : set_order (list nat)) (osym : set_order A)
      (fuel n : nat) (d : iaut A) (m : list (list nat * nat)) (todo : list (list nat)) : option (iaut A * res unit) :=
    match fuel with
    | 0 => None
    | S fuel' =>
        match opop n todo with
        | [] => Some (d, Ok tt)
        | qs :: todo' =>
            match fget m qs with
            | None => Some (d, Raise KeyError)
            | Some q =>
                obind (moore_sigma g complete qs) (fun sigma =>
                  obind (imoore_symbols g q qs (osym n sigma) d m todo') (fun '(d, m, todo, o) =>
                    match o with
                    | Raise e => Some (d, Raise e)
                    | Ok _ => imoore_loop g complete opop osym fuel' (S n) d m todo
                    end))
            end
        end
    end.

  (** moore_determination.py:41-54, 72. *)
  Definition imoore_determination (g : nfa A) (complete : bool) (opop : set_order (list nat)) (osym : set_order A)
      (fuel : nat) : option (iaut A * res unit) :=
    obind (N_delta_epsilon g (nf_init g)) (fun q0s =>
      match idfa_add_state g (IA_init 0) [] q0s with
      | (d, m, Raise e) => Some (d, Raise e)
      | (d, m, Ok _) => imoore_loop g complete opop osym fuel 0 d m [q0s]
      end).
End M.
