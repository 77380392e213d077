(** Model of src/pybgl/tokenize.py and of the generic part of src/pybgl/shunting_yard_postfix.py. *)
From Verif Require Import Base.

(** ** tokenize, tokenize.py:55-75 *)
Section Tokenize.
  Context {C : Type}.
  (** The calls to the visitor: the piece of string, its start, its end ([None] for the last unmatched piece) (tokenize.py:12-52). *)
  Inductive event :=
  | OnUnmatched (piece : list C) (start : nat) (stop : option nat)
  | OnMatched (piece : list C) (start stop : nat).
  (** [s[i:j]] (tokenize.py:66, 73) *)
  Definition slice (s : list C) (i j : nat) : list C := firstn (j - i) (skipn i s).
  (** [matches]: the (start, end) of the matches given by [tokenizer.finditer(s)]. Calls on the empty string are skipped (tokenize.py:63-75). *)
  Fixpoint tokenize_loop (s : list C) (start : nat) (matches : list (nat * nat)) : list event :=
    match matches with
    | [] => match skipn start s with [] => [] | remaining => [OnUnmatched remaining start None] end
    | (i, j) :: matches' =>
        (match slice s start i with [] => [] | unmatched => [OnUnmatched unmatched start (Some i)] end) ++
        (match slice s i j with [] => [] | matched => [OnMatched matched i j] end) ++
        tokenize_loop s j matches'
    end.
  (** tokenize, tokenize.py:55-75 *)
  Definition tokenize (matches : list (nat * nat)) (s : list C) : list event := tokenize_loop s 0 matches.
End Tokenize.
Arguments event : clear implicits.

(** ** shunting_yard_postfix, shunting_yard_postfix.py:290-402 *)
Section ShuntingYard.
  (** tokens *)
  Context {T : Type} `{EqDec T}.
  (** the tokens "(" and ")" *)
  Variables lpar rpar : T.

  (** Op, shunting_yard_postfix.py:21-27; [left] is [associativity == LEFT]. *)
  Record Op := mkOp { cardinality : nat; precedence : nat; left : bool }.
  Variable map_operators : dict T Op.

  (** The output: [push out a] is what [push_output(a)] does ([output.append(a)] then [vis.on_push_output(a)]),
      which may raise. The visitor callbacks on_push_operator and on_pop_operator have no effect (as in the
      default visitor and in the visitors of this project); SYCalls.v has them. *)
  Context {O : Type}.
  Variable push : O -> T -> res O.


  (** preceeds, shunting_yard_postfix.py:329-348, on two operators *)
  Definition preceeds_op (o1 o2 : Op) : bool :=
    (negb (left o2) && (precedence o2 <? precedence o1)) || (left o2 && (precedence o2 <=? precedence o1)).
  (** [operators[-1] in map_operators.keys() and preceeds(operators[-1], a)] *)
  Definition preceeds (o1 : T) (op2 : Op) : bool :=
    match dget map_operators o1 with None => false | Some op1 => preceeds_op op1 op2 end.

  (** ")", shunting_yard_postfix.py:384-387; the stack has its top first; [pop] on an empty deque raises IndexError. The test
      [while o] (a non-empty token) is dropped: no operator is the empty string. *)
  Fixpoint close_loop (operators : list T) (out : O) : res (list T * O) :=
    match operators with
    | [] => Raise IndexError
    | o :: operators' => if eqb o lpar then Ok (operators', out) else rbind (push out o) (close_loop operators')
    end.
  (** an operator, shunting_yard_postfix.py:389-395 *)
  Fixpoint pop_loop (op : Op) (operators : list T) (out : O) : res (list T * O) :=
    match operators with
    | [] => Ok ([], out)
    | o :: operators' => if preceeds o op then rbind (push out o) (pop_loop op operators') else Ok (operators, out)
    end.
  (** the body of the loop, shunting_yard_postfix.py:381-398 *)
  Definition token_step (s : list T * O) (a : T) : res (list T * O) :=
    let '(operators, out) := s in
    if eqb a lpar then Ok (a :: operators, out)
    else if eqb a rpar then close_loop operators out
    else match dget map_operators a with
         | Some op => rbind (pop_loop op operators out) (fun '(operators, out) => Ok (a :: operators, out))
         | None => rbind (push out a) (fun out => Ok (operators, out))
         end.
  (** the loop, shunting_yard_postfix.py:380-398 *)
  Fixpoint tokens_loop (s : list T * O) (expression : list T) : res (list T * O) :=
    match expression with
    | [] => Ok s
    | a :: expression' => rbind (token_step s a) (fun s => tokens_loop s expression')
    end.
  (** shunting_yard_postfix.py:400-401 *)
  Fixpoint flush (operators : list T) (out : O) : res O :=
    match operators with [] => Ok out | o :: operators' => rbind (push out o) (flush operators') end.
  (** shunting_yard_postfix, shunting_yard_postfix.py:290-402 *)
  Definition shunting_yard_postfix (expression : list T) (out : O) : res O :=
    rbind (tokens_loop ([], out) expression) (fun '(operators, out) => flush operators out).
End ShuntingYard.

(** the default output: a deque to which the tokens are appended (shunting_yard_postfix.py:290-402) *)
Definition push_deque {T} (out : list T) (a : T) : res (list T) := Ok (out ++ [a]).

(** ** RpnDequeOperation.append, shunting_yard_postfix.py:466-487 *)
Section Rpn.
  Context {T : Type} `{EqDec T} {V : Type}.
  Variable map_operators : dict T Op.
  Variable on_append : T -> V.
  (** on_operation(a, op, u, vs) *)
  Variable on_operation : T -> Op -> V -> list V -> res V.
  (** [card] calls to pop, each value being inserted at the front of [vs]; the deque has its right end first (shunting_yard_postfix.py:482-485) *)
  Fixpoint pops (card : nat) (deque : list V) (vs : list V) : res (list V * list V) :=
    match card with
    | 0 => Ok (vs, deque)
    | S card' => match deque with [] => Raise IndexError | v :: deque' => pops card' deque' (v :: vs) end
    end.
  (** RpnDequeOperation.append, shunting_yard_postfix.py:466-487 *)
  Definition rpn_append (deque : list V) (a : T) : res (list V) :=
    let u := on_append a in
    match dget map_operators a with
    | Some op =>
        rbind (pops (cardinality op) deque []) (fun '(vs, deque) =>
        rbind (on_operation a op u vs) (fun u => Ok (u :: deque)))
    | None => Ok (u :: deque)
    end.
End Rpn.
