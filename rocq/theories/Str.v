(** Strings as lists of code points. *)
From Coq Require Export NArith.
From Coq Require Import String Ascii.
From Verif Require Export Base.

(** [==] on characters, e.g. thompson_compile_nfa.py:430 *)
#[global] Instance EqDec_N : EqDec N := N.eq_dec.
(** a character of a Python string, e.g. thompson_compile_nfa.py:439-460 *)
Definition char := N.
(** a Python string, e.g. thompson_compile_nfa.py:370 *)
Definition str := list char.
(** ASCII literals (such as those of thompson_compile_nfa.py:464-483) *)
Definition lit (x : string) : str := map N_of_ascii (list_ascii_of_string x).
(** a literal of one character, e.g. thompson_compile_nfa.py:430 *)
Definition ch (x : string) : char := match lit x with c :: _ => c | [] => 0%N end.

(** str.isspace and the class \s on a character: the code points that CPython's Py_UNICODE_ISSPACE accepts (used by shunting_yard_postfix.py:151 and graphviz_impl.py:128). *)
Definition isspace (c : char) : bool :=
  mem c [9; 10; 11; 12; 13; 28; 29; 30; 31; 32; 133; 160; 5760; 8232; 8233; 8239; 8287; 12288]%N
  || ((8192 <=? c) && (c <=? 8202))%N.
(** the class \d on a character; the decimal digits above U+007F are left out (a simplification). *)
Definition isdigit (c : char) : bool := ((48 <=? c) && (c <=? 57))%N.

(** [pattern.finditer(s)] for a pattern with no empty match: [match_here s] is the length of the match of the pattern
    at the beginning of [s]. Leftmost matches, not overlapping, as in the module re. [skip]: number of characters
    already consumed by the previous match; [i]: position. *)
Section Finditer.
  Context {C : Type}.
  Variable match_here : list C -> option nat.
  (** the scan of finditer, called by tokenize.py:64 *)
  Fixpoint scan (skip i : nat) (s : list C) : list (nat * nat) :=
    match s with
    | [] => []
    | _ :: s' =>
        match skip with
        | Datatypes.S skip' => scan skip' (Datatypes.S i) s'
        | 0 => match match_here s with
               | Some len => (i, i + len) :: scan (len - 1) (Datatypes.S i) s'
               | None => scan 0 (Datatypes.S i) s'
               end
        end
    end.
  (** [pattern.finditer(s)], called by tokenize.py:64 *)
  Definition finditer (s : list C) : list (nat * nat) := scan 0 0 s.
End Finditer.
