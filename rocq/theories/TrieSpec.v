(** Vocabulary for the properties of tries, suffix tries and digital sequences: plain facts about
    words, independent of the model. *)
From Verif Require Import Base.

Section Spec.
  Context {A : Type}.

  (** [u] occurs in [w] at position [i]. *)
  Definition occurs_at (w u : list A) (i : nat) : Prop :=
    exists x y, w = x ++ u ++ y /\ length x = i.

  (** [u] is a contiguous factor of [w]. *)
  Definition factor (w u : list A) : Prop := exists x y, w = x ++ u ++ y.

  (** the length bound of suffix_trie.py; None and 0 mean "no bound". *)
  Definition fits (max_len : option nat) (u : list A) : Prop :=
    match max_len with
    | None | Some 0 => True
    | Some m => length u <= m
    end.

  (** [u] is a prefix of [w]. *)
  Definition is_prefix (u w : list A) : Prop := exists y, w = u ++ y.
End Spec.
