(** Model of the arithmetic part of src/pybgl/shunting_yard_postfix.py. *)
From Coq Require Import String.
From Verif Require Import Str ShuntingYard.
Open Scope string_scope.
Open Scope list_scope.

Section Alg.
  (** the numbers (Python floats), with float(...) and the arithmetic operators; they may raise *)
  Context {V : Type} `{EqDec V}.
  Variable float : str -> res V.
  Variables add sub mul div pow : V -> V -> res V.
  Variable neg : V -> res V.

  (** a token: a number or a string *)
  (** The type of the items of the token list, shunting_yard_postfix.py:89-105: float or str. *)
  Inductive atok := ANum (v : V) | AStr (s : str).
  (** == on these items (used by the lookups in the operator map, shunting_yard_postfix.py:388, 476). *)
  #[global] Instance EqDec_atok : EqDec atok.
  Proof. intros x y. pose proof (@EqDec_list N EqDec_N) as Es. unfold EqDec in *. decide equality. Defined.

  (** MAP_OPERATORS_ALG, shunting_yard_postfix.py:57-67 *)
  Definition map_operators_alg : dict atok Op :=
    [ (AStr (lit "u+"), mkOp 1 3 false); (AStr (lit "u-"), mkOp 1 3 false);
      (AStr (lit "^"), mkOp 2 4 false); (AStr (lit "*"), mkOp 2 3 true); (AStr (lit "/"), mkOp 2 3 true);
      (AStr (lit "+"), mkOp 2 2 true); (AStr (lit "-"), mkOp 2 2 true) ].

  (** RE_OPERATORS_ALG joined by "|", shunting_yard_postfix.py:69-72, 124: u+ u- ^ * / + - ( ) *)
  Definition match_alg (s : str) : option nat :=
    match s with
    | [] => None
    | c :: s' =>
        if eqb c (ch "u") then match s' with d :: _ => if mem d (lit "+-") then Some 2 else None | [] => None end
        else if mem c (lit "^*/+-()") then Some 1 else None
    end.

  (** AlgTokenizeVisitor, shunting_yard_postfix.py:75-105: the expression and prev_is_operator *)
  Definition alg_event (s : list atok * bool) (e : event char) : res (list atok * bool) :=
    let '(expression, prev_is_operator) := s in
    match e with
    | OnUnmatched unmatched _ _ => rbind (float unmatched) (fun v => Ok (expression ++ [ANum v], false))
    | OnMatched matched _ _ =>
        if prev_is_operator && negb (mem matched [lit "("; lit ")"]) then
          if eqb matched (lit "+") then Ok (expression ++ [AStr (lit "u+")], true)
          else if eqb matched (lit "-") then Ok (expression ++ [AStr (lit "u-")], true)
          else Raise RuntimeError
        else Ok (expression ++ [AStr matched], negb (eqb matched (lit ")")))
    end.
  (** The calls that tokenize makes to the visitor, shunting_yard_postfix.py:127-128, tokenize.py:55-75. *)
  Fixpoint alg_events (s : list atok * bool) (l : list (event char)) : res (list atok * bool) :=
    match l with [] => Ok s | e :: l' => rbind (alg_event s e) (fun s => alg_events s l') end.
  (** tokenizer_alg, shunting_yard_postfix.py:108-129 *)
  Definition tokenizer_alg (expression : str) : res (list atok) :=
    let expression := filter (fun c => negb (isspace c)) expression in
    rbind (alg_events ([], true) (tokenize (finditer match_alg expression) expression)) (fun s => Ok (fst s)).

  (** RpnDequeAlg, shunting_yard_postfix.py:683-748. The deque also holds tokens which are not numbers: an unmatched parenthesis is
      appended as such; an arithmetic operator applied to it raises TypeError, except + between two strings. *)
  Definition num (x : atok) : res V := match x with ANum v => Ok v | AStr _ => Raise TypeError end.
  (** An arithmetic operator on two items of the deque, shunting_yard_postfix.py:733-742. *)
  Definition arith2 (f : V -> V -> res V) (x y : atok) : res atok :=
    rbind (num x) (fun x => rbind (num y) (fun y => rbind (f x y) (fun v => Ok (ANum v)))).
  (** [x + y], shunting_yard_postfix.py:733-734: the concatenation when x and y are strings (they are parentheses). *)
  Definition plus2 (x y : atok) : res atok :=
    match x, y with AStr s, AStr t => Ok (AStr (s ++ t)) | _, _ => arith2 add x y end.
  (** The unary operator, shunting_yard_postfix.py:743-744. *)
  Definition arith1 (f : V -> res V) (x : atok) : res atok := rbind (num x) (fun x => rbind (f x) (fun v => Ok (ANum v))).
  (** RpnDequeAlg.on_operation, shunting_yard_postfix.py:708-748. *)
  Definition on_operation (a : atok) (op : Op) (u : atok) (vs : list atok) : res atok :=
    match vs with
    | [x] => if eqb a (AStr (lit "u-")) then arith1 neg x else Raise ValueError
    | [x; y] =>
        if eqb a (AStr (lit "+")) then plus2 x y
        else if eqb a (AStr (lit "-")) then arith2 sub x y
        else if eqb a (AStr (lit "/")) then arith2 div x y
        else if eqb a (AStr (lit "*")) then arith2 mul x y
        else if eqb a (AStr (lit "^")) then arith2 pow x y
        else Raise ValueError
    | _ => Raise ValueError
    end.
  (** The method append of RpnDequeAlg, shunting_yard_postfix.py:466-487, inherited from RpnDequeOperation. *)
  Definition push_alg : list atok -> atok -> res (list atok) := rpn_append map_operators_alg (fun a => a) on_operation.

  (** shunting_yard_compute, shunting_yard_postfix.py:751-788, with the default map_operators, tokenize and vis. (With tokenize=False
      the Python code raises UnboundLocalError.) *)
  Definition shunting_yard_compute (expression : str) : res atok :=
    rbind (tokenizer_alg expression) (fun tokens =>
    rbind (shunting_yard_postfix (AStr (lit "(")) (AStr (lit ")")) map_operators_alg push_alg tokens []) (fun ret =>
    match ret with [result] => Ok result | _ => Raise AssertionError end)).
End Alg.
Arguments atok : clear implicits.
