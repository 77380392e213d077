(** Theorems on the calls that shunting_yard_postfix makes to its visitor: C124. *)
From Coq Require Import String ZArith.
From Verif Require Import Str ShuntingYard SYSpec SYProofs Alg AlgProofs TSY SYCalls SYCallsSpec SYCallsProofs Base BaseProofs.
Open Scope string_scope.
Open Scope list_scope.

(** Any tokens. There is one list of calls, the same for any output and any visitor, and the function makes exactly these calls, in this order, up to
    the first one that raises. Each token read has its calls; the operators left at the end go to the output; what is popped is always the last
    token pushed, and nothing is left; when an operator is pushed, the one below it does not take its operand.
    All the tokens are read, or the function stops at a ")" that no "(" on the stack matches, with IndexError, having popped everything. *)
Theorem C124_calls : forall T (H : EqDec T) (lpar rpar : T) (ops : dict T Op) expr, lpar <> rpar ->
  exists read rest calls l, expr = read ++ rest /\ Forall2 (calls_of lpar rpar ops) read calls /\
    follow (concat calls ++ to_output l) [] = Some [] /\
    (forall l1 o l2, concat calls ++ to_output l = l1 ++ PushOperator o :: l2 -> o <> lpar ->
       forall o' st, follow l1 [] = Some (o' :: st) -> ~ binds_left ops o' o) /\
    ((rest = [] /\
      forall O V (append : O -> T -> res O) (on_pop on_push on_out : V -> T -> res V) out v,
        shunting_yard_calls lpar rpar ops append on_pop on_push on_out expr (out, v) =
        perform_sy append on_pop on_push on_out (concat calls ++ to_output l) out v) \/
     ((exists q, rest = rpar :: q) /\ ~ In lpar l /\
      forall O V (append : O -> T -> res O) (on_pop on_push on_out : V -> T -> res V) out v,
        shunting_yard_calls lpar rpar ops append on_pop on_push on_out expr (out, v) =
        match perform_sy append on_pop on_push on_out (concat calls ++ to_output l) out v with Ok _ => Raise IndexError | Raise e => Raise e end)).
Proof.
  intros T H lpar rpar ops expr NE. destruct (all_shape lpar rpar ops expr) as (read & rest & calls & l & E & F2 & EQ & FO & P & R).
  exists read, rest, calls, l. split; [exact E|]. split; [exact F2|]. rewrite <- EQ. split; [exact FO|]. split; [exact P|].
  destruct (snd (all_tr lpar rpar ops expr)) eqn:S.
  - left. split; [exact R|]. intros O V append on_pop on_push on_out out v. rewrite run_all, S. destruct (perform_sy _ _ _ _ _ out v); reflexivity.
  - right. destruct R as [Q I]. split; [exact Q|]. split; [exact I|]. intros O V append on_pop on_push on_out out v. rewrite run_all, S. reflexivity.
Qed.
Print Assumptions C124_calls.

(** The calls for the infix form of a tree, exactly: the operators of the right border of an operand are output just before the operator
    that follows it is pushed, a parenthesis is pushed before its content and popped after it. The tokens output are the postfix form. *)
Theorem C124_tree : forall T (H : EqDec T) (lpar rpar : T) (ops : dict T Op) t O V (append : O -> T -> res O) (on_pop on_push on_out : V -> T -> res V) out v,
  lpar <> rpar -> ~ In lpar (dkeys ops) -> fits lpar rpar ops t ->
  shunting_yard_calls lpar rpar ops append on_pop on_push on_out (infix lpar rpar t) (out, v) =
  perform_sy append on_pop on_push on_out (reading lpar t ++ to_output (rev (right_border t))) out v /\
  outputs (reading lpar t ++ to_output (rev (right_border t))) = postfix t.
Proof.
  intros T H lpar rpar ops t O V append on_pop on_push on_out out v NE NL F. split.
  - rewrite run_all, (all_tree lpar rpar ops NE NL t F). cbn [fst snd]. destruct (perform_sy _ _ _ _ _ out v); reflexivity.
  - rewrite outputs_app, outputs_to_output. destruct (outputs_reading lpar rpar ops t) as [E|E]; [exact E|destruct (E F)].
Qed.
Print Assumptions C124_tree.

(** A visitor that does not raise changes nothing to the output, nor to the exception. *)
Theorem C124_same_output : forall T (H : EqDec T) (lpar rpar : T) (ops : dict T Op) expr O V (append : O -> T -> res O) (on_pop on_push on_out : V -> T -> res V) out v,
  (forall v a, (exists v', on_pop v a = Ok v') /\ (exists v', on_push v a = Ok v') /\ (exists v', on_out v a = Ok v')) ->
  match shunting_yard_calls lpar rpar ops append on_pop on_push on_out expr (out, v) with
  | Ok (out', _) => shunting_yard_postfix lpar rpar ops append expr out = Ok out'
  | Raise e => shunting_yard_postfix lpar rpar ops append expr out = Raise e
  end.
Proof.
  intros T H lpar rpar ops expr O V append on_pop on_push on_out out v Q. rewrite run_all, same_all.
  pose proof (quiet_perform append on_pop on_push on_out Q (fst (all_tr lpar rpar ops expr)) out v) as K.
  destruct (perform_sy _ _ _ _ _ out v) as [[out' v']|e]; rewrite K; cbn [rbind]; [|reflexivity]. destruct (snd _); reflexivity.
Qed.
Print Assumptions C124_same_output.

(** ** Examples *)
#[local] Instance EqDec_Zc : EqDec Z := Z.eq_dec.
(** a visitor that records its calls *)
Definition rec_pop (v : list (sy_call (atok Z))) a : res (list (sy_call (atok Z))) := Ok (v ++ [PopOperator a]).
Definition rec_push (v : list (sy_call (atok Z))) a : res (list (sy_call (atok Z))) := Ok (v ++ [PushOperator a]).
Definition rec_out (v : list (sy_call (atok Z))) a : res (list (sy_call (atok Z))) := Ok (v ++ [PushOutput a]).
Definition sy_run := shunting_yard_calls (tk "(") (tk ")") map_operators_alg push_deque rec_pop rec_push rec_out.
(** 1 - 2 - 3 ^ (4 + 5) ^ 6, the tree of C30, meets the hypotheses *)
Example C124_tree_hypotheses : tk "(" <> tk ")" /\ ~ In (tk "(") (dkeys map_operators_alg) /\ fits (tk "(") (tk ")") map_operators_alg t30.
Proof. split; [discriminate|]. split; [intros X; cbv in X; intuition discriminate|exact t30_fits]. Qed.
Example C124_tree_example : sy_run (infix (tk "(") (tk ")") t30) ([], []) = Ok
  ([ANum 1; ANum 2; tk "-"; ANum 3; ANum 4; ANum 5; tk "+"; ANum 6; tk "^"; tk "^"; tk "-"]%Z,
   [PushOutput (ANum 1); PushOperator (tk "-"); PushOutput (ANum 2); PopOperator (tk "-"); PushOutput (tk "-"); PushOperator (tk "-"); PushOutput (ANum 3); PushOperator (tk "^");
    PushOperator (tk "("); PushOutput (ANum 4); PushOperator (tk "+"); PushOutput (ANum 5); PopOperator (tk "+"); PushOutput (tk "+"); PopOperator (tk "(");
    PushOperator (tk "^"); PushOutput (ANum 6); PopOperator (tk "^"); PushOutput (tk "^"); PopOperator (tk "^"); PushOutput (tk "^"); PopOperator (tk "-"); PushOutput (tk "-")]%Z).
Proof. vm_compute. reflexivity. Qed.
(** (1 + 2 : the parenthesis that is never closed is popped and output; 1 + 2) * 3 : IndexError, after everything is popped (the third run raises at the pop of "+"). *)
Example C124_calls_example :
  sy_run [tk "("; ANum 1; tk "+"; ANum 2]%Z ([], []) =
    Ok ([ANum 1; ANum 2; tk "+"; tk "("]%Z,
        [PushOperator (tk "("); PushOutput (ANum 1); PushOperator (tk "+"); PushOutput (ANum 2); PopOperator (tk "+"); PushOutput (tk "+"); PopOperator (tk "("); PushOutput (tk "(")]%Z) /\
  sy_run [ANum 1; tk "+"; ANum 2; tk ")"; tk "*"; ANum 3]%Z ([], []) = Raise IndexError /\
  shunting_yard_calls (tk "(") (tk ")") map_operators_alg push_deque (fun v a => if eqb a (tk "+") then Raise ValueError else rec_pop v a) rec_push rec_out
    [ANum 1; tk "+"; ANum 2; tk ")"; tk "*"; ANum 3]%Z ([], []) = Raise ValueError.
Proof. vm_compute. repeat split. Qed.
Example C124_same_output_hypothesis : forall v a, (exists v', rec_pop v a = Ok v') /\ (exists v', rec_push v a = Ok v') /\ (exists v', rec_out v a = Ok v').
Proof. intros v a. unfold rec_pop, rec_push, rec_out. eauto 6. Qed.
