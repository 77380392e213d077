(** Model of shunting_yard_postfix with the calls to its visitor (src/pybgl/shunting_yard_postfix.py:254-402). *)
From Verif Require Import Base ShuntingYard.

Section Calls.
  (** tokens; the tokens "(" and ")"; the operators (shunting_yard_postfix.py:290-325) *)
  Context {T : Type} `{EqDec T}.
  Variables lpar rpar : T.
  Variable map_operators : dict T Op.
  (** [output.append] (shunting_yard_postfix.py:377); any class with this method may be given, it may raise *)
  Context {O : Type}.
  Variable append : O -> T -> res O.
  (** the visitor: its own state and its three methods, any of which may raise (DefaultShuntingYardVisitor, shunting_yard_postfix.py:254-283).
      Simplified: the visitor and the output do not share anything. *)
  Context {V : Type}.
  Variables on_pop_operator on_push_operator on_push_output : V -> T -> res V.

  (** push_output, shunting_yard_postfix.py:370-378: the token is appended, then the visitor is told *)
  Definition c_push_output (s : O * V) (a : T) : res (O * V) :=
    rbind (append (fst s) a) (fun out => rbind (on_push_output (snd s) a) (fun v => Ok (out, v))).
  (** the call of push_operator, shunting_yard_postfix.py:358-368 (the caller pushes the token on its stack) *)
  Definition c_told_push (s : O * V) (o : T) : res (O * V) := rbind (on_push_operator (snd s) o) (fun v => Ok (fst s, v)).
  (** the call of pop_operator, shunting_yard_postfix.py:350-356 (the caller has popped the token from its stack) *)
  Definition c_told_pop (s : O * V) (o : T) : res (O * V) := rbind (on_pop_operator (snd s) o) (fun v => Ok (fst s, v)).

  (** ")", shunting_yard_postfix.py:383-387. [operators.pop()] raises IndexError on an empty deque, before the visitor is told. The test
      [while o] (a non-empty token) is dropped: no operator is the empty string. *)
  Fixpoint c_close_loop (operators : list T) (s : O * V) : res (list T * (O * V)) :=
    match operators with
    | [] => Raise IndexError
    | o :: operators' =>
        rbind (c_told_pop s o) (fun s =>
        if eqb o lpar then Ok (operators', s) else rbind (c_push_output s o) (c_close_loop operators'))
    end.
  (** an operator, shunting_yard_postfix.py:389-394 *)
  Fixpoint c_pop_loop (op : Op) (operators : list T) (s : O * V) : res (list T * (O * V)) :=
    match operators with
    | [] => Ok ([], s)
    | o :: operators' =>
        if preceeds map_operators o op then rbind (c_told_pop s o) (fun s => rbind (c_push_output s o) (c_pop_loop op operators'))
        else Ok (operators, s)
    end.
  (** the body of the loop, shunting_yard_postfix.py:381-398 *)
  Definition c_token_step (st : list T * (O * V)) (a : T) : res (list T * (O * V)) :=
    let '(operators, s) := st in
    if eqb a lpar then rbind (c_told_push s a) (fun s => Ok (a :: operators, s))
    else if eqb a rpar then c_close_loop operators s
    else match dget map_operators a with
         | Some op => rbind (c_pop_loop op operators s) (fun '(operators, s) => rbind (c_told_push s a) (fun s => Ok (a :: operators, s)))
         | None => rbind (c_push_output s a) (fun s => Ok (operators, s))
         end.
  (** the loop, shunting_yard_postfix.py:380-398 *)
  Fixpoint c_tokens_loop (st : list T * (O * V)) (expression : list T) : res (list T * (O * V)) :=
    match expression with
    | [] => Ok st
    | a :: expression' => rbind (c_token_step st a) (fun st => c_tokens_loop st expression')
    end.
  (** shunting_yard_postfix.py:400-401 *)
  Fixpoint c_flush (operators : list T) (s : O * V) : res (O * V) :=
    match operators with
    | [] => Ok s
    | o :: operators' => rbind (c_told_pop s o) (fun s => rbind (c_push_output s o) (c_flush operators'))
    end.
  (** shunting_yard_postfix, shunting_yard_postfix.py:290-402, with an output and a visitor *)
  Definition shunting_yard_calls (expression : list T) (s : O * V) : res (O * V) :=
    rbind (c_tokens_loop ([], s) expression) (fun '(operators, s) => c_flush operators s).
End Calls.
