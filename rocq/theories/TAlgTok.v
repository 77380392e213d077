(** Theorems C135: the tokens of an arithmetic expression. *)
From Coq Require Import String ZArith.
From Verif Require Import Str BaseProofs ShuntingYard SYSpec SYProofs Alg AlgSpec AlgProofs AlgTokSpec AlgTokProofs.
Open Scope string_scope.
Open Scope nat_scope.
Open Scope list_scope.

(** the text without its white space *)
Definition no_spaces (w : str) : str := filter (fun c => negb (isspace c)) w.

(** Every text, its spaces removed, is cut in one way; nothing else is lost. *)
Theorem C135_cut (w : str) : exists l, cut (no_spaces w) l /\ (forall l', cut (no_spaces w) l' -> l' = l) /\ concat (map apiece_text l) = no_spaces w.
Proof.
  destruct (cut_exists (no_spaces w)) as (l & C). exists l. split; [exact C|]. split; [apply (cut_unique _ _ C)|apply cut_text, C].
Qed.

(** tokenizer_alg returns exactly the tokens of the pieces, and raises exactly when one of the pieces has no token: the exception is
    that of the first one. *)
Theorem C135_tokens {V} `{EqDec V} (float : str -> res V) (w : str) (l : list apiece) : cut (no_spaces w) l ->
  (forall r, tokenizer_alg float w = Ok r <-> alg_tokens float None l r) /\
  (forall ex, tokenizer_alg float w = Raise ex <->
     exists l1 p l2 r, l = l1 ++ p :: l2 /\ alg_tokens float None l1 r /\ bad_piece float (last_piece None l1) p ex).
Proof.
  intros C. rewrite (tokenizer_cut float w l C). pose proof (segs_ok float l None []) as SO. pose proof (segs_raise float l None []) as SR.
  destruct (alg_segs float ([], flag None) (map aseg l)) as [[R b]|e]; cbn [rbind fst] in *; split.
  - intros r. destruct (proj1 (SO R b) eq_refl) as (r0 & E0 & T0 & _). cbn [app] in E0. subst r0. split; [intros [= <-]; exact T0|]. intros T.
    assert (X : Ok (R, b) = Ok (r, flag (last_piece None l))) by (apply SO; exists r; auto). injection X as -> _. reflexivity.
  - intros ex. rewrite <- SR. split; discriminate.
  - intros r. split; [discriminate|]. intros T. exfalso. assert (X : Raise e = Ok (r, flag (last_piece None l))) by (apply SO; exists r; auto). discriminate.
  - intros ex. rewrite <- SR. split; congruence.
Qed.

(** White space plays no role. *)
Theorem C135_spaces {V} `{EqDec V} (float : str -> res V) (w w' : str) : no_spaces w = no_spaces w' -> tokenizer_alg float w = tokenizer_alg float w'.
Proof. unfold tokenizer_alg, no_spaces. intros ->. reflexivity. Qed.

(** integers instead of floats *)
Definition c135_float (s : str) : res Z :=
  if forallb isdigit s then Ok (fold_left (fun a c => 10 * a + (Z.of_N c - 48))%Z s 0%Z) else Raise ValueError.
Notation c135 w := (tokenizer_alg c135_float (lit w)).
(** The first - and the one after ( are unary, the others binary; * at the beginning and u+ after an operator are errors, and a
    number is not cut by a space. *)
Example C135_example :
  c135 "-1 2-(-3)--4" = Ok [AStr (lit "u-"); ANum 12%Z; AStr (lit "-"); AStr (lit "("); AStr (lit "u-"); ANum 3%Z; AStr (lit ")"); AStr (lit "-"); AStr (lit "u-"); ANum 4%Z] /\
  c135 "*3" = Raise RuntimeError /\ c135 "1u-2" = Ok [ANum 1%Z; AStr (lit "u-"); ANum 2%Z] /\ c135 "1+u-2" = Raise RuntimeError /\ c135 "1+x" = Raise ValueError /\
  c135 ")-(" = Ok [AStr (lit ")"); AStr (lit "-"); AStr (lit "(")].
Proof. vm_compute. repeat split. Qed.
Example C135_cut_example : cut (no_spaces (lit "- 1 2-x(")) [Sign (lit "-"); Number (lit "12"); Sign (lit "-"); Number (lit "x"); Sign (lit "(")].
Proof.
  assert (N : forall c s, ~ In c (lit "^*/+-()u") -> ~ begins_with_operator (c :: s)).
  { intros c s NI (t & rest & I & E). apply NI. cbn in I. repeat (destruct I as [<-|I]; [injection E as -> _; cbn; tauto|]). destruct I. }
  apply (cut_sign (lit "-") (lit "12-x(")); [cbn; tauto|]. apply (cut_number (lit "12") (lit "-x(")); [discriminate| |right; exists (lit "-"), (lit "x("); split; [cbn; tauto|reflexivity]|].
  { intros [|a [|b u1]] u2 E NE; cbn in E.
    - subst u2. apply N. cbv. intuition discriminate.
    - injection E as <- <-. apply N. cbv. intuition discriminate.
    - injection E as _ _ E. symmetry in E. apply app_eq_nil in E. destruct (NE (proj2 E)). }
  apply (cut_sign (lit "-") (lit "x(")); [cbn; tauto|]. apply (cut_number (lit "x") (lit "(")); [discriminate| |right; exists (lit "("), []; split; [cbn; tauto|reflexivity]|].
  { intros [|a u1] u2 E NE; cbn in E.
    - subst u2. apply N. cbv. intuition discriminate.
    - injection E as _ E. symmetry in E. apply app_eq_nil in E. destruct (NE (proj2 E)). }
  apply (cut_sign (lit "(") []); [cbn; tauto|]. constructor.
Qed.

Print Assumptions C135_cut.
Print Assumptions C135_tokens.
Print Assumptions C135_spaces.
