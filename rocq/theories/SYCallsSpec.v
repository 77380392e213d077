(** What is said of the calls that shunting_yard_postfix makes to its visitor. *)
From Verif Require Import Base ShuntingYard SYSpec.

Section Spec.
  Context {T : Type} `{EqDec T}.
  Variables lpar rpar : T.
  Variable ops : dict T Op.

  Inductive sy_call := PushOperator (o : T) | PopOperator (o : T) | PushOutput (a : T).

  (** These calls made one after the other, until one raises; the token of PushOutput is first appended to the output. *)
  Fixpoint perform_sy {O V} (append : O -> T -> res O) (on_pop on_push on_out : V -> T -> res V) (l : list sy_call) (out : O) (v : V) : res (O * V) :=
    match l with
    | [] => Ok (out, v)
    | PushOperator o :: l' => match on_push v o with Ok v' => perform_sy append on_pop on_push on_out l' out v' | Raise e => Raise e end
    | PopOperator o :: l' => match on_pop v o with Ok v' => perform_sy append on_pop on_push on_out l' out v' | Raise e => Raise e end
    | PushOutput a :: l' =>
        match append out a with
        | Ok out' => match on_out v a with Ok v' => perform_sy append on_pop on_push on_out l' out' v' | Raise e => Raise e end
        | Raise e => Raise e
        end
    end.

  (** A stack that follows the calls: what is popped is always the last token pushed and not yet popped. *)
  Fixpoint follow (l : list sy_call) (stack : list T) : option (list T) :=
    match l with
    | [] => Some stack
    | PushOperator o :: l' => follow l' (o :: stack)
    | PopOperator o :: l' => match stack with o' :: stack' => if eqb o o' then follow l' stack' else None | [] => None end
    | PushOutput _ :: l' => follow l' stack
    end.
  (** the tokens output *)
  Definition outputs (l : list sy_call) : list T := flat_map (fun c => match c with PushOutput a => [a] | _ => [] end) l.

  (** operators that leave the stack for the output *)
  Definition to_output (l : list T) : list sy_call := flat_map (fun o => [PopOperator o; PushOutput o]) l.
  (** the calls made for one token *)
  Definition calls_of (a : T) (c : list sy_call) : Prop :=
    (a = lpar /\ c = [PushOperator lpar]) \/
    (a = rpar /\ exists l, ~ In lpar l /\ c = to_output l ++ [PopOperator lpar]) \/
    (operator lpar rpar ops a /\ exists l, (forall o, In o l -> binds_left ops o a) /\ c = to_output l ++ [PushOperator a]) \/
    (operand lpar rpar ops a /\ c = [PushOutput a]).

  (** Reading the infix form of a tree: the calls made while its tokens are read; the operators of its right border are still on the stack. *)
  Fixpoint reading (t : tree (T := T)) : list sy_call :=
    match t with
    | Leaf a => [PushOutput a]
    | Suffix x a => reading x ++ [PushOutput a]
    | Bin l o r => reading l ++ to_output (rev (right_border l)) ++ PushOperator o :: reading r
    | Post x o => reading x ++ to_output (rev (right_border x)) ++ [PushOperator o]
    | Pre o x => PushOperator o :: reading x
    | Par x => PushOperator lpar :: reading x ++ to_output (rev (right_border x)) ++ [PopOperator lpar]
    end.
End Spec.
Arguments sy_call : clear implicits.
