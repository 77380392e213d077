(** Model of accepts_debug (src/pybgl/automaton.py). *)
From Verif Require Import Base Graph Automaton Trie PBFS Insert.

Section AutRun.
  Context {A : Type} `{EqDec A}.
  (** What print writes, with the values instead of their texts: the first line [w = .. q0 = ..], then for each symbol
      [w[i] = a, q -> r]. *)
  Record line := Line { ln_index : nat; ln_symbol : A; ln_from : option nat; ln_to : option nat }.

  (** the loop, automaton.py:482-487; [i]: the index, [bf]: what is_final answers on BOTTOM (pmap_vfinal is a map whose
      default value is False, so [bf] is False unless set_final has been called on BOTTOM; or it is a function given by
      the user). *)
  Fixpoint accepts_debug_loop (g : aut A) (bf : bool) (i : nat) (q : option nat) (w : list A) : list line * bool :=
    match w with
    | [] => ([], match q with Some q => A_is_final g q | None => bf end)
    | a :: w' =>
        let l := Line i a q (odelta g q a) in
        match q with
        | None => ([l], false)
        | Some _ => let '(ls, b) := accepts_debug_loop g bf (S i) (odelta g q a) w' in (l :: ls, b)
        end
    end.
  (** automaton.py:467-487 *)
  Definition accepts_debug (g : aut A) (bf : bool) (w : list A) : (list A * option nat) * list line * bool :=
    let '(ls, b) := accepts_debug_loop g bf 0 (A_initial g) w in ((w, A_initial g), ls, b).
End AutRun.
Arguments line : clear implicits.
