(** Independent vocabulary for non-deterministic automata: a finite set of transitions (q, a, r),
    sets of initial and final states, and runs with epsilon-transitions inserted anywhere. *)
From Verif Require Import Base Graph Nfa.

Section Spec.
  Context {A : Type} `{EqDec A}.
  Notation trans := (nat * A * nat)%type.

  Record anfa := AN { an_next : nat; an_V : list nat; an_T : list trans; an_I : list nat; an_F : nat -> bool }.

  (** What each call of the class does to that description. [add_vertex] hands out the number
      [an_next], even if [add_edge] created it already as a source: its transitions are then lost.
      [add_edge] adds a transition (and its source); [remove_edge] removes the transition with all
      its parallel copies; [remove_vertex] removes the incident transitions; [clear] restarts the numbers, removes the vertices and
      the transitions, and keeps the initial states and the final flags. *)
  Definition an_init (n : nat) (I : list nat) : anfa :=
    AN n (seq 0 n) [] (match I with [] => [0] | _ => I end) (fun _ => false).
  Definition an_step (s : anfa) (op : nfop A) : anfa :=
    let '(AN k V T Ini Fin) := s in
    match op with
    | FAddVertex => AN (S k) (sadd k V) (filter (fun '(q, _, _) => negb (q =? k)) T) Ini Fin
    | FAddEdge q r a => AN k (sadd q V) (sadd (q, a, r) T) Ini Fin
    | FRemoveEdge q r a => AN k V (srem (q, a, r) T) Ini Fin
    | FRemoveVertex u => AN k (srem u V) (filter (fun '(q, _, r) => negb ((q =? u) || (r =? u))) T) Ini Fin
    | FSetInitial q b => AN k V T (if b then sadd q Ini else srem q Ini) Fin
    | FSetInitials qs => AN k V T (sof qs) Fin
    | FSetFinal q b => AN k V T Ini (fun x => if x =? q then b else Fin x)
    | FClear => AN 0 [] [] Ini Fin
    end.

  (** How many copies of each transition there are: [add_edge] adds one, and the other calls remove all
      the copies of a transition or none; and what each call returns: the number of the new vertex,
      the new edge with the number of its copies. *)
  Definition an_copies (s : anfa) (c : nat -> A -> nat -> nat) (op : nfop A) : nat -> A -> nat -> nat :=
    fun q a r =>
      match op with
      | FAddVertex => if q =? an_next s then 0 else c q a r
      | FAddEdge q' r' a' => if (q =? q') && (r =? r') && eqb a a' then S (c q a r) else c q a r
      | FRemoveEdge q' r' a' => if (q =? q') && (r =? r') && eqb a a' then 0 else c q a r
      | FRemoveVertex u => if (q =? u) || (r =? u) then 0 else c q a r
      | FClear => 0
      | _ => c q a r
      end.
  Definition an_result (s : anfa) (c : nat -> A -> nat -> nat) (op : nfop A) : nfout A :=
    match op with
    | FAddVertex => FOutVertex (an_next s)
    | FAddEdge q r a => FOutEdge q r a (S (c q a r))
    | FRemoveVertex u => if mem u (an_V s) then FOutUnit else FOutRaise KeyError
    | _ => FOutUnit
    end.
  Fixpoint an_results (s : anfa) (c : nat -> A -> nat -> nat) (ops : list (nfop A)) : list (nfout A) * (nat -> A -> nat -> nat) :=
    match ops with
    | [] => ([], c)
    | op :: ops' => let '(os, c') := an_results (an_step s op) (an_copies s c op) ops' in (an_result s c op :: os, c')
    end.

  (** [g] has a transition q -a-> r *)
  Definition ntrans (g : nfa A) (q : nat) (a : A) (r : nat) : Prop := In r (dkeys (N_get g q a)).
  (** the nested dictionaries have unique keys, as Python's do *)
  Definition nwf (m : dict nat (dict A (dict nat (list nat)))) : Prop :=
    NoDup (dkeys m) /\ forall q arn, dget m q = Some arn -> NoDup (dkeys arn) /\
      forall a rn, dget arn a = Some rn -> NoDup (dkeys rn).

  Section Runs.
    Variable T : nat -> A -> nat -> Prop.
    Variable eps : A.
    (** reachability by epsilon-transitions *)
    Inductive eps_star : nat -> nat -> Prop :=
    | eps_refl q : eps_star q q
    | eps_step q r t : T q eps r -> eps_star r t -> eps_star q t.
    (** a run spelling [w] from [q] to [t] *)
    Inductive nrun : nat -> list A -> nat -> Prop :=
    | nrun_nil q : nrun q [] q
    | nrun_eps q r t w : T q eps r -> nrun r w t -> nrun q w t
    | nrun_cons q a r t w : a <> eps -> T q a r -> nrun r w t -> nrun q (a :: w) t.
  End Runs.
End Spec.
Arguments anfa : clear implicits.
