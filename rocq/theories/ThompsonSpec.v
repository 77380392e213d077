(** Languages (sets of words) and the regular operations on them; the shape of the NFAs handled by the
    Thompson constructions. *)
From Verif Require Import Base Graph Nfa NfaSpec.

Section Lang.
  Context {A : Type}.
  Definition lang := list A -> Prop.
  Definition leps : lang := fun w => w = [].
  Definition lsym (P : A -> Prop) : lang := fun w => exists a, w = [a] /\ P a.
  Definition lcat (L1 L2 : lang) : lang := fun w => exists u v, w = u ++ v /\ L1 u /\ L2 v.
  Definition lalt (L1 L2 : lang) : lang := fun w => L1 w \/ L2 w.
  (** exactly [n] words of [L] *)
  Fixpoint lpow (L : lang) (n : nat) : lang :=
    match n with 0 => leps | S n => lcat L (lpow L n) end.
  Definition lstar (L : lang) : lang := fun w => exists n, lpow L n w.
  Definition lplus (L : lang) : lang := fun w => exists n, 1 <= n /\ lpow L n w.
  Definition lopt (L : lang) : lang := lalt leps L.
  (** between [m] and [n] words of [L]; [n = None] is unbounded *)
  Definition lrange (L : lang) (m : nat) (n : option nat) : lang :=
    fun w => exists k, m <= k /\ match n with Some n => k <= n | None => True end /\ lpow L k w.
End Lang.
Arguments lang : clear implicits.

Section Fragment.
  Context {A : Type} `{EqDec A}.
  Variable eps : A.
  (** An NFA whose only initial state is [q0], with no other final state than [f]; its states are below the next
      number to be given, and its transitions are between its states. *)
  Record pre (g : nfa A) (q0 f : nat) : Prop := {
    p_wf : nwf (nf_adj g);
    p_V : forall v, In v (N_vertices g) -> v < nf_last g;
    p_T : forall q a r, ntrans g q a r -> In q (N_vertices g) /\ In r (N_vertices g);
    p_I : nf_init g = [q0];
    p_q0 : In q0 (N_vertices g);
    p_f : In f (N_vertices g);
    p_F : forall v, nf_final g v = true -> v = f;
    p_eps : nf_eps g = eps }.
  (** (nfa, q0, f) with one initial state q0 and one final state f *)
  Definition good (x : nfa A * nat * nat) : Prop :=
    let '(g, q0, f) := x in pre g q0 f /\ nf_final g f = true.

  (** the states are numbered 0, 1, 2, .. in the order of their creation, and q0 and f are two of them *)
  Definition numbered (x : nfa A * nat * nat) : Prop :=
    let '(g, q0, f) := x in N_vertices g = seq 0 (nf_last g) /\ q0 < nf_last g /\ f < nf_last g.

  (** the words accepted by the NFA of a fragment *)
  Definition accepted (x : nfa A * nat * nat) : lang A := fun w => N_accepts (fst (fst x)) w = Some true.
End Fragment.
