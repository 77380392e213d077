(** Expression trees, their infix and postfix forms, and when the infix form reads back as the tree. *)
From Verif Require Import Base ShuntingYard.

Section Spec.
  Context {T : Type} `{EqDec T}.
  Variables lpar rpar : T.
  Variable ops : dict T Op.

  (** [Leaf a]: an operand; [Suffix x a]: the operand [x] followed by the non-operator token [a] (such as a
      repetition {m,n} of a regular expression); binary (infix), postfix and prefix operators; parentheses. *)
  Inductive tree :=
  | Leaf (a : T) | Suffix (x : tree) (a : T)
  | Bin (l : tree) (o : T) (r : tree) | Post (x : tree) (o : T) | Pre (o : T) (x : tree) | Par (x : tree).

  Fixpoint infix (t : tree) : list T :=
    match t with
    | Leaf a => [a] | Suffix x a => infix x ++ [a]
    | Bin l o r => infix l ++ o :: infix r | Post x o => infix x ++ [o] | Pre o x => o :: infix x
    | Par x => lpar :: infix x ++ [rpar]
    end.
  Fixpoint postfix (t : tree) : list T :=
    match t with
    | Leaf a => [a] | Suffix x a => postfix x ++ [a]
    | Bin l o r => postfix l ++ postfix r ++ [o] | Post x o => postfix x ++ [o] | Pre o x => postfix x ++ [o]
    | Par x => postfix x
    end.

  (** the operators met along the left (resp. right) border of the infix form, outside parentheses *)
  Fixpoint left_border (t : tree) : list T :=
    match t with
    | Leaf _ | Par _ => [] | Suffix x _ => left_border x
    | Bin l o _ => left_border l ++ [o] | Post x o => left_border x ++ [o] | Pre o _ => [o]
    end.
  Fixpoint right_border (t : tree) : list T :=
    match t with
    | Leaf _ | Par _ | Suffix _ _ => []
    | Bin _ o r => o :: right_border r | Post _ o => [o] | Pre o x => o :: right_border x
    end.

  (** [o1], on the left, takes the operand standing between [o1] and [o2]: it has a greater precedence, or the
      same one and [o2] is left-associative *)
  Definition binds_left (o1 o2 : T) : Prop :=
    exists p1 p2, dget ops o1 = Some p1 /\ dget ops o2 = Some p2 /\
      (precedence p2 < precedence p1 \/ (precedence p1 = precedence p2 /\ left p2 = true)).

  Definition operator (o : T) : Prop := o <> lpar /\ o <> rpar /\ In o (dkeys ops).
  Definition operand (a : T) : Prop := a <> lpar /\ a <> rpar /\ ~ In a (dkeys ops).

  (** The infix form is unambiguous: each operand goes to the operator it is attached to in the tree. *)
  Fixpoint fits (t : tree) : Prop :=
    match t with
    | Leaf a => operand a
    | Suffix x a => fits x /\ operand a /\ right_border x = []
    | Bin l o r => fits l /\ operator o /\ fits r /\
        (forall o', In o' (right_border l) -> binds_left o' o) /\ (forall o', In o' (left_border r) -> ~ binds_left o o')
    | Post x o => fits x /\ operator o /\ (forall o', In o' (right_border x) -> binds_left o' o)
    | Pre o x => operator o /\ fits x /\ (forall o', In o' (left_border x) -> ~ binds_left o o')
    | Par x => fits x
    end.

  (** the tree with all the parentheses added; only the tokens are checked *)
  Fixpoint parenthesize (t : tree) : tree :=
    match t with
    | Leaf a => Leaf a | Suffix x a => Suffix (Par (parenthesize x)) a
    | Bin l o r => Bin (Par (parenthesize l)) o (Par (parenthesize r)) | Post x o => Post (Par (parenthesize x)) o
    | Pre o x => Pre o (Par (parenthesize x)) | Par x => Par (parenthesize x)
    end.
  Fixpoint tokens_ok (t : tree) : Prop :=
    match t with
    | Leaf a => operand a | Suffix x a => tokens_ok x /\ operand a
    | Bin l o r => tokens_ok l /\ operator o /\ tokens_ok r | Post x o | Pre o x => tokens_ok x /\ operator o
    | Par x => tokens_ok x
    end.
End Spec.
