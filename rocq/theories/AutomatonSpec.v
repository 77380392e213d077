(** Independent specification of the automaton classes: a state is a counter, a list of vertices, a
    list of transitions with at most one per (source, label), an initial state and a final predicate. *)
From Verif Require Import Base Graph Automaton.

Section Spec.
  Context {A : Type} `{EqDec A}.

  Record aaut := AA {
    aa_next : nat; aa_V : list nat; aa_T : list (edge A); aa_q0 : option nat; aa_final : nat -> bool }.

  Definition aa_init (n : nat) : aaut := AA n (seq 0 n) [] (Some 0) (fun _ => false).

  Definition same_key (q : nat) (a : A) (e : edge A) : bool := (source e =? q) && eqb (distinguisher e) a.
  (** The transition function: target of the transition labelled [a] from [q]. *)
  Definition lookup (T : list (edge A)) (q : nat) (a : A) : option nat :=
    option_map target (find (same_key q a) T).
  Definition drop_key (q : nat) (a : A) (T : list (edge A)) : list (edge A) :=
    filter (fun e => negb (same_key q a e)) T.
  Definition drop_into (u : nat) (T : list (edge A)) := filter (fun e => negb (target e =? u)) T.
  Definition drop_incident (u : nat) (T : list (edge A)) :=
    filter (fun e => negb ((source e =? u) || (target e =? u))) T.

  (** [AAddEdge]: an existing transition to a state other than 0 is kept; one to state 0 is replaced
      (what the code does, see C10). *)
  Definition aa_step (s : aaut) (op : aop A) : aaut * aout A :=
    let '(AA k V T q0 f) := s in
    match op with
    | AAddVertex => (AA (S k) (V ++ [k]) T q0 f, AOutVertex k)
    | AAddEdge q r a =>
        match lookup T q a with
        | Some (S _) => (s, AOutEdge None false)
        | _ => if mem q V then (AA k V (drop_key q a T ++ [Edge q r a]) q0 f, AOutEdge (Some (Edge q r a)) true)
               else (s, AOutRaise KeyError)
        end
    | ARemoveEdge e => (AA k V (drop_key (source e) (distinguisher e) T) q0 f, AOutUnit)
    | ARemoveVertex u =>
        if mem u V then (AA k (filter (fun v => negb (v =? u)) V) (drop_incident u T) q0 f, AOutUnit)
        else (AA k V (drop_into u T) q0 f, AOutRaise KeyError)
    | ASetInitial q b =>
        (AA k V T (if b then q else if eqb q0 q then None else q0) f, AOutUnit)
    | ASetFinal q b => (AA k V T q0 (fun x => if x =? q then b else f x), AOutUnit)
    | AClear => (AA 0 [] [] q0 f, AOutUnit)
    end.

  (** A path spelled [w] from [q] to [r] in a list of transitions. *)
  Inductive path (T : list (edge A)) : nat -> list A -> nat -> Prop :=
  | path_nil q : path T q [] q
  | path_cons q a r w t : In (Edge q r a) T -> path T r w t -> path T q (a :: w) t.

  (** Calls of an IncidenceAutomaton that respect the discipline under which [in_edges] is
      maintained: [add_edge] names existing vertices and does not hit an existing transition to
      state 0, [remove_edge] names an existing edge or an undefined transition. *)
  Definition ia_disciplined (s : aaut) (op : aop A) : Prop :=
    match op with
    | AAddEdge q r a => In q (aa_V s) /\ In r (aa_V s) /\ lookup (aa_T s) q a <> Some 0
    | ARemoveEdge e => In e (aa_T s) \/ lookup (aa_T s) (source e) (distinguisher e) = None
    | _ => True
    end.
  (** IncidenceAutomaton: remove_edge raises KeyError when no edge joins the endpoints ;
      remove_vertex of an unknown vertex is silent. *)
  Definition ia_step (s : aaut) (op : aop A) : aaut * aout A :=
    match op with
    | ARemoveEdge e =>
        if existsb (fun x => (source x =? source e) && (target x =? target e)) (aa_T s)
        then aa_step s op else (fst (aa_step s op), AOutRaise KeyError)
    | ARemoveVertex u => if mem u (aa_V s) then aa_step s op else (s, AOutUnit)
    | _ => aa_step s op
    end.
  Fixpoint disciplined (s : aaut) (ops : list (aop A)) : Prop :=
    match ops with
    | [] => True
    | op :: ops' => ia_disciplined s op /\ disciplined (fst (ia_step s op)) ops'
    end.
End Spec.
Arguments aaut : clear implicits.

(** Node automata: the vertices carry the symbols. *)
Section NodeSpec.
  Context {A : Type} `{EqDec A}.
  Record nspec := NS { ns_next : nat; ns_V : list nat; ns_T : list (edge (option A)); ns_sym : nat -> option A }.

  Definition ns_init : nspec := NS 0 [] [] (fun _ => None).

  Definition ns_step (s : nspec) (op : nop A) : nspec * aout (option A) :=
    let '(NS k V T sym) := s in
    match op with
    | NAddVertex a =>
        (NS (S k) (V ++ [k]) T (match a with None => sym | _ => fun x => if x =? k then a else sym x end), AOutVertex k)
    | NAddEdge q r =>
        if mem q V then
          match lookup T q (sym r) with
          | Some _ => (s, AOutEdge None false)
          | None => (NS k V (T ++ [Edge q r (sym r)]) sym, AOutEdge (Some (Edge q r (sym r))) true)
          end
        else (s, AOutRaise KeyError)
    | NRemoveEdge e =>
        if existsb (fun x => (source x =? source e) && (target x =? target e)) T
        then (NS k V (drop_key (source e) (sym (target e)) T) sym, AOutUnit)
        else (s, AOutRaise KeyError)
    | NRemoveVertex u => (NS k (filter (fun v => negb (v =? u)) V) (drop_incident u T) sym, AOutUnit)
    end.

  (** [add_edge] towards an existing vertex; [remove_edge] of an existing edge or of an undefined
      transition. *)
  Definition ns_disciplined (s : nspec) (op : nop A) : Prop :=
    match op with
    | NAddEdge q r => In r (ns_V s)
    | NRemoveEdge e =>
        (exists x, In x (ns_T s) /\ source x = source e /\ target x = target e) \/
        lookup (ns_T s) (source e) (ns_sym s (target e)) = None
    | _ => True
    end.
  Fixpoint ndisciplined (s : nspec) (ops : list (nop A)) : Prop :=
    match ops with
    | [] => True
    | op :: ops' => ns_disciplined s op /\ ndisciplined (fst (ns_step s op)) ops'
    end.
End NodeSpec.
Arguments nspec : clear implicits.

(** A path spelled [w] in a list of named transitions (source, target, label). *)
Inductive npath {N A : Type} (tr : list (N * N * A)) : N -> list A -> N -> Prop :=
| npath_nil q : npath tr q [] q
| npath_cons q a r w t : In (q, r, a) tr -> npath tr r w t -> npath tr q (a :: w) t.
