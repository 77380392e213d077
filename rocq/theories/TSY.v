(** Theorems on tokenize, shunting_yard_postfix and shunting_yard_compute: C30, C31, C32. *)
From Coq Require Import String ZArith.
From Verif Require Import Str BaseProofs ShuntingYard SYSpec SYProofs Alg AlgSpec AlgProofs AlgProofs2.
Open Scope string_scope.
Open Scope list_scope.
#[local] Arguments dkeys : simpl never.

(** ** C30 *)
(** For any operator table, any tree whose infix form fits the table, the output is the postfix form. *)
Theorem C30_postfix {T} `{EqDec T} (lpar rpar : T) ops t : lpar <> rpar -> ~ In lpar (dkeys ops) ->
  fits lpar rpar ops t ->
  shunting_yard_postfix lpar rpar ops push_deque (infix lpar rpar t) [] = Ok (postfix t).
Proof.
  intros N NL F. rewrite (shunting_yard_tree lpar rpar ops NL push_deque t [] N F).
  assert (E : forall l out, pushes (T := T) push_deque out l = Ok (out ++ l)).
  { induction l as [|a l IH]; intros out; cbn; [rewrite app_nil_r; reflexivity|]. rewrite IH, <- app_assoc. reflexivity. }
  apply E.
Qed.
Print Assumptions C30_postfix.

(** With all the parentheses written, any tree fits. *)
Theorem C30_parenthesized {T} `{EqDec T} (lpar rpar : T) ops t : lpar <> rpar -> ~ In lpar (dkeys ops) ->
  tokens_ok lpar rpar ops t ->
  shunting_yard_postfix lpar rpar ops push_deque (infix lpar rpar (parenthesize t)) [] = Ok (postfix t).
Proof.
  intros N NL F. rewrite <- (parenthesize_postfix t). apply C30_postfix; [exact N|exact NL|]. apply parenthesize_fits, F.
Qed.
Print Assumptions C30_parenthesized.

(** Any output sink receives exactly the postfix form, token by token. *)
Theorem C30_sink {T} `{EqDec T} {O} (push : O -> T -> res O) (lpar rpar : T) ops t out : lpar <> rpar -> ~ In lpar (dkeys ops) ->
  fits lpar rpar ops t ->
  shunting_yard_postfix lpar rpar ops push (infix lpar rpar t) out =
  fold_left (fun o a => match o with Ok out => push out a | Raise e => Raise e end) (postfix t) (Ok out).
Proof.
  intros N NL F. rewrite (shunting_yard_tree lpar rpar ops NL push t out N F).
  assert (R : forall l e, fold_left (fun (o : res O) a => match o with Ok out => push out a | Raise e => Raise e end) l (Raise e) = Raise e) by (induction l; intros; cbn; auto).
  generalize (postfix t) as l. intros l. revert out. induction l as [|a l IH]; intros out; cbn; [reflexivity|].
  destruct (push out a) as [out'|e]; cbn; [apply IH|]. symmetry. apply R.
Qed.
Print Assumptions C30_sink.

(** ** C30 on any list of tokens *)
Definition occurrences {T} `{EqDec T} (a : T) (l : list T) : nat := List.length (filter (eqb a) l).
Lemma occ_app {T} `{EqDec T} (a : T) l m : occurrences a (l ++ m) = occurrences a l + occurrences a m.
Proof. unfold occurrences. rewrite filter_app, app_length. reflexivity. Qed.
Lemma occ_cons {T} `{EqDec T} (a b : T) l : occurrences a (b :: l) = (if eqb a b then 1 else 0) + occurrences a l.
Proof. unfold occurrences. cbn [filter]. destruct (eqb a b); reflexivity. Qed.
Lemma occ_notin {T} `{EqDec T} (a : T) l : ~ In a l -> occurrences a l = 0.
Proof. induction l as [|b l IH]; intros N; [reflexivity|]. rewrite occ_cons. destruct (eqb_spec a b) as [->|_]; [destruct N; now left|]. apply IH. intros I. apply N. now right. Qed.
Lemma occ_perm {T} `{EqDec T} (l : list T) : forall m, (forall a, occurrences a l = occurrences a m) <-> Permutation l m.
Proof.
  induction l as [|b l IH]; intros m.
  - split; [|intros P; now rewrite (Permutation_nil P)]. intros E. destruct m as [|c m]; [constructor|]. specialize (E c). rewrite occ_cons, eqb_refl in E. discriminate.
  - split.
    + intros E. destruct (mem_reflect b m) as [I|N].
      * apply in_split in I. destruct I as (m1 & m2 & ->). apply Permutation_cons_app. apply IH. intros a. specialize (E a). rewrite occ_app, !occ_cons in E. rewrite occ_app. lia.
      * specialize (E b). rewrite (occ_notin b m N), occ_cons, eqb_refl in E. discriminate.
    + intros P a. induction P; rewrite ?occ_cons; try lia.
Qed.
Ltac perm_by_count := apply occ_perm; let x := fresh "x" in intros x; repeat rewrite ?occ_app, ?occ_cons; cbn [occurrences filter List.length]; try lia.
Section AnyTokens.
  Context {T : Type} `{EqDec T}.
  Variables (lpar rpar : T) (ops : dict T Op).
  Hypothesis NE : lpar <> rpar.
  Hypothesis NL : ~ In lpar (dkeys ops).
  Lemma close_any st : forall out, match close_loop lpar push_deque st out with
    | Ok (st', out') => exists a, st = a ++ lpar :: st' /\ ~ In lpar a /\ out' = out ++ a
    | Raise e => e = IndexError /\ ~ In lpar st
    end.
  Proof.
    induction st as [|y st IH]; intros out; cbn [close_loop]; [split; [reflexivity|intros []]|]. destruct (eqb_spec y lpar) as [->|N].
    - exists []. rewrite app_nil_r. auto.
    - cbn [push_deque rbind]. specialize (IH (out ++ [y])). destruct (close_loop lpar push_deque st (out ++ [y])) as [[st' out']|e].
      + destruct IH as (a & -> & I & ->). exists (y :: a). rewrite <- app_assoc. split; [reflexivity|]. split; [|reflexivity]. intros [K|K]; [congruence|exact (I K)].
      + destruct IH as [-> I]. split; [reflexivity|]. intros [K|K]; [congruence|exact (I K)].
  Qed.
  Lemma pop_any op st : forall out, exists a st', pop_loop ops push_deque op st out = Ok (st', out ++ a) /\ st = a ++ st' /\ ~ In lpar a.
  Proof.
    induction st as [|y st IH]; intros out; cbn [pop_loop]; [exists [], []; rewrite app_nil_r; auto|]. destruct (preceeds ops y op) eqn:E.
    - cbn [push_deque rbind]. destruct (IH (out ++ [y])) as (a & st' & -> & -> & I). exists (y :: a), st'. rewrite <- app_assoc. split; [reflexivity|]. split; [reflexivity|].
      intros [->|K]; [|exact (I K)]. unfold preceeds in E. replace (dget ops lpar) with (@None Op) in E; [discriminate|]. symmetry. now apply dget_None.
    - exists [], (y :: st). rewrite app_nil_r. auto.
  Qed.
  Definition never_closed (d : nat) (expr : list T) : Prop := forall p q, expr = p ++ q -> occurrences rpar p <= d + occurrences lpar p.
  Lemma never_closed_cons d a expr : (a = rpar -> 0 < d) -> never_closed (if eqb a lpar then S d else if eqb a rpar then d - 1 else d) expr -> never_closed d (a :: expr).
  Proof.
    intros D N p q E. destruct p as [|b p]; [cbn; lia|]. injection E as <- E. specialize (N p q E). rewrite !occ_cons.
    destruct (eqb_spec a lpar) as [->|N1]; [rewrite eqb_refl; destruct (eqb_spec rpar lpar); [congruence|lia]|]. destruct (eqb_spec lpar a); [congruence|].
    destruct (eqb_spec a rpar) as [->|N2]; [rewrite eqb_refl; specialize (D eq_refl); lia|]. destruct (eqb_spec rpar a); [congruence|lia].
  Qed.
  Lemma tokens_any expr : forall st out, match tokens_loop lpar rpar ops push_deque (st, out) expr with
    | Ok (st', out') => never_closed (occurrences lpar st) expr /\
        Permutation (st' ++ out' ++ repeat lpar (occurrences rpar expr) ++ repeat rpar (occurrences rpar expr)) (st ++ out ++ expr)
    | Raise e => e = IndexError /\ exists p q, expr = p ++ q /\ occurrences lpar st + occurrences lpar p < occurrences rpar p
    end.
  Proof.
    induction expr as [|a expr IH]; intros st out; cbn [tokens_loop].
    - split; [|apply Permutation_refl]. intros [|b p] q E; [cbn; lia|discriminate].
    - assert (NEXT : forall st1 out1, token_step lpar rpar ops push_deque (st, out) a = Ok (st1, out1) ->
        (a = rpar -> 0 < occurrences lpar st) ->
        occurrences lpar st1 = (if eqb a lpar then S (occurrences lpar st) else if eqb a rpar then occurrences lpar st - 1 else occurrences lpar st) ->
        Permutation (st1 ++ out1 ++ (if eqb rpar a then [lpar; rpar] else [])) (st ++ out ++ [a]) ->
        match rbind (token_step lpar rpar ops push_deque (st, out) a) (fun s => tokens_loop lpar rpar ops push_deque s expr) with
        | Ok (st', out') => never_closed (occurrences lpar st) (a :: expr) /\
            Permutation (st' ++ out' ++ repeat lpar (occurrences rpar (a :: expr)) ++ repeat rpar (occurrences rpar (a :: expr))) (st ++ out ++ a :: expr)
        | Raise e => e = IndexError /\ exists p q, a :: expr = p ++ q /\ occurrences lpar st + occurrences lpar p < occurrences rpar p
        end).
      { intros st1 out1 -> D O P. cbn [rbind]. specialize (IH st1 out1). destruct (tokens_loop lpar rpar ops push_deque (st1, out1) expr) as [[st' out']|e].
        - destruct IH as [N Q]. split; [apply never_closed_cons; [exact D|rewrite <- O; exact N]|].
          apply occ_perm. intros x. pose proof (proj2 (occ_perm _ _) P x) as P1. pose proof (proj2 (occ_perm _ _) Q x) as Q1. rewrite !occ_app in P1, Q1. rewrite (occ_cons rpar a expr).
          destruct (eqb rpar a); cbn [Nat.add repeat]; rewrite ?occ_app, ?occ_cons in *; change (occurrences x []) with 0 in *; lia.
        - destruct IH as (-> & p & q & -> & L). split; [reflexivity|]. exists (a :: p), q. split; [reflexivity|]. rewrite !occ_cons. revert O.
          destruct (eqb_spec a lpar) as [->|N1]; [rewrite eqb_refl; destruct (eqb_spec rpar lpar); [congruence|lia]|]. destruct (eqb_spec lpar a); [congruence|].
          destruct (eqb_spec a rpar) as [->|N2]; [rewrite eqb_refl; specialize (D eq_refl); lia|]. destruct (eqb_spec rpar a); [congruence|lia]. }
      destruct (eqb_spec a lpar) as [->|N1].
      + apply (NEXT (lpar :: st) out).
        * unfold token_step. rewrite eqb_refl. reflexivity.
        * congruence.
        * rewrite occ_cons, eqb_refl. reflexivity.
        * destruct (eqb_spec rpar lpar); [congruence|]. rewrite app_nil_r. cbn [app]. rewrite app_assoc. apply Permutation_cons_append.
      + destruct (eqb_spec a rpar) as [->|N2].
        * pose proof (close_any st out) as C. destruct (close_loop lpar push_deque st out) as [[st1 out1]|e] eqn:E.
          -- destruct C as (l & -> & I & ->). apply (NEXT st1 (out ++ l)).
             ++ unfold token_step. destruct (eqb_spec rpar lpar); [congruence|]. rewrite eqb_refl. exact E.
             ++ intros _. rewrite occ_app, occ_cons, eqb_refl. lia.
             ++ rewrite occ_app, occ_cons, eqb_refl, (occ_notin lpar l I). lia.
             ++ rewrite eqb_refl. perm_by_count.
          -- destruct C as [-> I]. unfold token_step. destruct (eqb_spec rpar lpar); [congruence|]. rewrite eqb_refl, E. cbn [rbind]. split; [reflexivity|].
             exists [rpar], expr. split; [reflexivity|]. rewrite (occ_notin lpar st I), !occ_cons, eqb_refl. destruct (eqb_spec lpar rpar); [congruence|]. cbn. lia.
        * destruct (dget ops a) as [op|] eqn:E.
          -- destruct (pop_any op st out) as (l & st1 & PL & -> & I). apply (NEXT (a :: st1) (out ++ l)).
             ++ unfold token_step. destruct (eqb_spec a lpar); [congruence|]. destruct (eqb_spec a rpar); [congruence|]. rewrite E, PL. reflexivity.
             ++ congruence.
             ++ rewrite occ_cons, occ_app, (occ_notin lpar l I). destruct (eqb_spec lpar a); [congruence|]. reflexivity.
             ++ destruct (eqb_spec rpar a); [congruence|]. perm_by_count.
          -- apply (NEXT st (out ++ [a])).
             ++ unfold token_step. destruct (eqb_spec a lpar); [congruence|]. destruct (eqb_spec a rpar); [congruence|]. rewrite E. reflexivity.
             ++ congruence.
             ++ reflexivity.
             ++ destruct (eqb_spec rpar a); [congruence|]. rewrite app_nil_r. apply Permutation_refl.
  Qed.
End AnyTokens.

(** With any list of tokens: the function raises exactly when some closing parenthesis has no matching opening one before it, and then it raises IndexError.
    Otherwise the output is the input without its closing parentheses and without as many opening ones: an opening parenthesis that is never closed stays in the output, no other token is lost or invented. *)
Theorem C30_any_tokens : forall T (H : EqDec T) (lpar rpar : T) (ops : dict T Op) expr,
  lpar <> rpar -> ~ In lpar (dkeys ops) ->
  match shunting_yard_postfix lpar rpar ops push_deque expr [] with
  | Ok out =>
      (forall p q, expr = p ++ q -> occurrences rpar p <= occurrences lpar p) /\
      Permutation (out ++ repeat lpar (occurrences rpar expr) ++ repeat rpar (occurrences rpar expr)) expr
  | Raise e => e = IndexError /\ exists p q, expr = p ++ q /\ occurrences lpar p < occurrences rpar p
  end.
Proof.
  intros T H lpar rpar ops expr NE NL. unfold shunting_yard_postfix. pose proof (tokens_any lpar rpar ops NE NL expr [] []) as K.
  destruct (tokens_loop lpar rpar ops push_deque ([], []) expr) as [[st out]|e]; cbn [rbind]; [|exact K].
  destruct K as [N P]. assert (D : forall st (out : list T), flush push_deque st out = Ok (out ++ st)).
  { clear. induction st as [|y st IH]; intros out; cbn [flush]; [now rewrite app_nil_r|]. cbn [push_deque rbind]. rewrite IH, <- app_assoc. reflexivity. }
  rewrite D. split; [exact N|]. cbn [app] in P. refine (Permutation_trans _ P). perm_by_count.
Qed.
Print Assumptions C30_any_tokens.

(** 1 - 2 - 3 ^ (4 + 5) ^ 6 *)
Definition tk (x : string) : atok Z := AStr (lit x).
Definition nm (x : Z) : tree (T := atok Z) := Leaf (ANum x).
Definition t30 : tree (T := atok Z) :=
  Bin (Bin (nm 1) (tk "-") (nm 2)) (tk "-") (Bin (nm 3) (tk "^") (Bin (Par (Bin (nm 4) (tk "+") (nm 5))) (tk "^") (nm 6))).
#[local] Instance EqDec_Z : EqDec Z := Z.eq_dec.
Lemma binds_dec (o1 o2 : atok Z) (p1 p2 : Op) : dget map_operators_alg o1 = Some p1 -> dget map_operators_alg o2 = Some p2 ->
  (binds_left map_operators_alg o1 o2 <-> precedence p2 < precedence p1 \/ (precedence p1 = precedence p2 /\ left p2 = true)).
Proof. apply binds_num. Qed.
Example t30_fits : fits (tk "(") (tk ")") map_operators_alg t30.
Proof.
  cbn; unfold operator, operand.
  repeat match goal with
  | |- _ /\ _ => split
  | |- _ <> _ => discriminate
  | |- ~ In _ _ => let X := fresh in intros X; cbv in X; intuition discriminate
  | |- In _ _ => cbv; tauto
  | |- forall _, _ \/ _ -> _ => intros ? X
  | |- forall _, False -> _ => intros ? []
  | X : _ \/ _ |- _ => destruct X as [<-|X]
  | X : False |- _ => destruct X
  | |- binds_left _ _ _ => eapply binds_dec; [reflexivity|reflexivity|cbn; lia]
  | |- ~ binds_left _ _ _ => let X := fresh in intros X; eapply binds_dec in X; [|reflexivity|reflexivity]; cbn in X; destruct X as [X|(X & Y)]; [lia|discriminate || lia]
  end.
Qed.
Example t30_run : shunting_yard_postfix (tk "(") (tk ")") map_operators_alg push_deque (infix (tk "(") (tk ")") t30) [] =
  Ok [ANum 1; ANum 2; tk "-"; ANum 3; ANum 4; ANum 5; tk "+"; ANum 6; tk "^"; tk "^"; tk "-"]%Z.
Proof. vm_compute. reflexivity. Qed.
(** The operands of the hypotheses matter: read as (1 - (2 - 3)), the same tokens do not fit. *)
Example t30_misfit : shunting_yard_postfix (tk "(") (tk ")") map_operators_alg push_deque
    (infix (tk "(") (tk ")") (Bin (nm 1) (tk "-") (Bin (nm 2) (tk "-") (nm 3)))) [] <>
  Ok (postfix (Bin (nm 1) (tk "-") (Bin (nm 2) (tk "-") (nm 3)))).
Proof. vm_compute. discriminate. Qed.

(** (1 + 2) * (3   and   1 + 2) * (3)( *)
Example C30_any_tokens_ex :
  shunting_yard_postfix (tk "(") (tk ")") map_operators_alg push_deque [tk "("; ANum 1; tk "+"; ANum 2; tk ")"; tk "*"; tk "("; ANum 3]%Z [] =
    Ok [ANum 1; ANum 2; tk "+"; ANum 3; tk "("; tk "*"]%Z /\
  shunting_yard_postfix (tk "(") (tk ")") map_operators_alg push_deque [ANum 1; tk "+"; ANum 2; tk ")"; tk "*"; tk "("; ANum 3; tk ")"; tk "("]%Z [] = Raise IndexError.
Proof. vm_compute. split; reflexivity. Qed.

(** ** C31 *)
(** Without a plus sign, and with the precedences of the table: shunting_yard_compute returns the value, or raises when
    the expression has no value (bad number, division by zero). Spaces may be added anywhere. What is missing for C31:
    the plus sign, which always raises (next theorem), and a sign just after ^. *)
Theorem C31_compute_partial {V} `{EqDec V} (float : str -> res V) add sub mul div pow neg (w : str) (e : aexp) :
  filter (fun c => negb (isspace c)) w = text e -> grammar e -> no_plus_sign e ->
  match value float add sub mul div pow neg e with
  | Some v => shunting_yard_compute float add sub mul div pow neg w = Ok (ANum v)
  | None => exists ex, shunting_yard_compute float add sub mul div pow neg w = Raise ex
  end.
Proof.
  intros E G NP. apply sign_free_spec in NP. pose proof (compute_text float add sub mul div pow neg w e E G) as X. unfold val' in X. rewrite NP in X. exact X.
Qed.
Print Assumptions C31_compute_partial.

(** A plus sign anywhere makes the computation raise. *)
Theorem C31_plus_sign_partial {V} `{EqDec V} (float : str -> res V) add sub mul div pow neg (w : str) (e : aexp) :
  filter (fun c => negb (isspace c)) w = text e -> grammar e -> ~ no_plus_sign e ->
  exists ex, shunting_yard_compute float add sub mul div pow neg w = Raise ex.
Proof.
  intros E G NP. pose proof (compute_text float add sub mul div pow neg w e E G) as X. unfold val' in X.
  destruct (sign_free e) eqn:S; [apply sign_free_spec in S; destruct (NP S)|exact X].
Qed.
Print Assumptions C31_plus_sign_partial.

(** Integers instead of floats in the examples *)
Definition digits_val (s : str) : res Z :=
  if forallb isdigit s then Ok (fold_left (fun a c => 10 * a + (Z.of_N c - 48))%Z s 0%Z) else Raise ValueError.
Definition cmp (w : string) : res (atok Z) :=
  shunting_yard_compute digits_val (fun x y => Ok (x + y)%Z) (fun x y => Ok (x - y)%Z) (fun x y => Ok (x * y)%Z)
    (fun x y => if Z.eqb y 0 then Raise ValueError else Ok (x / y)%Z) (fun x y => Ok (x ^ y)%Z) (fun x => Ok (- x)%Z) (lit w).
Definition valz (e : aexp) : option Z :=
  value digits_val (fun x y => Ok (x + y)%Z) (fun x y => Ok (x - y)%Z) (fun x y => Ok (x * y)%Z)
    (fun x y => if Z.eqb y 0 then Raise ValueError else Ok (x / y)%Z) (fun x y => Ok (x ^ y)%Z) (fun x => Ok (- x)%Z) e.
(** The sign + raises ValueError, 2^-3 raises IndexError: both have a value. *)
Theorem C31_compute_refuted :
  (exists e, grammar e /\ text e = lit "+3" /\ valz e = Some 3%Z /\ cmp "+3" = Raise ValueError) /\
  (exists e, text e = lit "2^-3" /\ valz e = Some 0%Z /\ cmp "2^-3" = Raise IndexError).
Proof.
  split.
  - exists (Pos (Num (lit "3"))). split; [|split; [reflexivity|split; vm_compute; reflexivity]].
    split; [|cbn; lia]. split; [discriminate|]. intros c [<-|[]]. split; [reflexivity|]. intros X. cbv in X. intuition discriminate.
  - exists (BinA (Num (lit "2")) OPow (Neg (Num (lit "3")))). split; [reflexivity|]. split; vm_compute; reflexivity.
Qed.
Print Assumptions C31_compute_refuted.

(** On any text, well formed or not: if shunting_yard_compute returns, it returns a number when the text holds one, and a
    non-empty string of opening parentheses otherwise. *)
Theorem C31_any_text {V} `{EqDec V} (float : str -> res V) add sub mul div pow neg (w : str) (r : atok V) :
  shunting_yard_compute float add sub mul div pow neg w = Ok r -> exists tokens, tokenizer_alg float w = Ok tokens /\
  match r with
  | ANum _ => exists v, In (ANum v) tokens
  | AStr s => (forall v, ~ In (ANum v) tokens) /\ s <> [] /\ forall c, In c s -> c = ch "("
  end.
Proof.
  intros E. destruct (result_kind float add sub mul div pow neg w r E) as (tokens & T & K & S). exists tokens. split; [exact T|]. destruct r as [v|s].
  - apply K. exists v. reflexivity.
  - split; [|apply (S s eq_refl)]. intros v I. destruct (proj2 K) as (x & X); [exists v; exact I|discriminate].
Qed.
(** "()+((" is computed to the string "((" *)
Example C31_parentheses : cmp "()+((" = Ok (AStr (lit "((")) /\ cmp "(" = Ok (AStr (lit "(")) /\ cmp "(1+2" = Raise AssertionError /\ cmp "1+(" = Raise TypeError /\ cmp "-(-(5))" = Ok (ANum 5%Z).
Proof. vm_compute. split; [reflexivity|]. split; [reflexivity|]. split; [reflexivity|]. split; reflexivity. Qed.
Print Assumptions C31_any_text.

Definition n31 (x : string) : aexp := Num (lit x).
Definition e31 : aexp := BinA (BinA (n31 "12") OSub (BinA (Neg (n31 "2")) OMul (Neg (BinA (n31 "3") OPow (BinA (n31 "2") OPow (n31 "2")))))) OSub (BinA (ParA (BinA (n31 "7") OSub (n31 "1"))) ODiv (n31 "4")).
Example e31_text : text e31 = lit "12--2*-3^2^2-(7-1)/4" /\ no_plus_sign e31 /\ grammar e31.
Proof.
  split; [reflexivity|]. split; [cbn; tauto|]. unfold e31, n31. cbn [grammar lvl].
  assert (X : forall s c, forallb isdigit s = true -> In c s -> isspace c = false /\ ~ In c (lit "^*/+-()u")).
  { intros s c F I. rewrite forallb_forall in F. apply F in I. unfold isdigit in I. rewrite andb_true_iff, !N.leb_le in I. split.
    - unfold isspace. apply orb_false_iff. split; [apply mem_false; cbn; lia|]. apply andb_false_iff. rewrite !N.leb_gt. lia.
    - intros J. cbn in J. repeat (destruct J as [<-|J]; [lia|]). destruct J. }
  repeat match goal with |- _ /\ _ => split | |- _ <> [] => discriminate | |- _ <= _ => lia | |- _ = 0 => reflexivity end;
    intros c; (apply X; reflexivity).
Qed.
Example e31_val : valz e31 = Some (-151)%Z /\ cmp " 12--2 * -3^2^2 - (7-1)/4" = Ok (ANum (-151)%Z).
Proof. split; vm_compute; reflexivity. Qed.

(** ** C32 *)
(** Matches in increasing order, not overlapping, inside the string: the specification of finditer. *)
Fixpoint increasing (from len : nat) (ms : list (nat * nat)) : Prop :=
  match ms with [] => from <= len | (i, j) :: ms' => from <= i /\ i <= j /\ increasing j len ms' end.
Definition piece_of {C} (e : event C) : list C := match e with OnUnmatched p _ _ | OnMatched p _ _ => p end.
Definition start_of {C} (e : event C) : nat := match e with OnUnmatched _ i _ | OnMatched _ i _ => i end.
Definition stop_of {C} (len : nat) (e : event C) : nat := match e with OnUnmatched _ _ (Some j) | OnMatched _ _ j => j | OnUnmatched _ _ None => len end.
Definition matched_at {C} (e : event C) : list (nat * nat) := match e with OnMatched _ i j => [(i, j)] | _ => [] end.

Lemma increasing_le {from len ms} : increasing from len ms -> from <= len.
Proof. revert from. induction ms as [|[i j] ms IH]; intros from; cbn; [auto|]. intros (A & B & C). apply IH in C. lia. Qed.
Lemma slice_length {C} (s : list C) i j : i <= j <= List.length s -> List.length (slice s i j) = j - i.
Proof. intros X. unfold slice. rewrite firstn_length, skipn_length. lia. Qed.

Lemma tokenize_loop_spec {C} (s : list C) start ms : increasing start (List.length s) ms ->
  concat (map piece_of (tokenize_loop s start ms)) = skipn start s /\
  (forall pre e post, tokenize_loop s start ms = pre ++ e :: post ->
     piece_of e <> [] /\ start_of e = start + List.length (concat (map piece_of pre)) /\ stop_of (List.length s) e = start_of e + List.length (piece_of e)) /\
  flat_map matched_at (tokenize_loop s start ms) = filter (fun m => negb (Nat.eqb (fst m) (snd m))) ms.
Proof.
  revert start. induction ms as [|[i j] ms IH]; intros start I; cbn [tokenize_loop].
  - cbn in I. pose proof (skipn_length start s) as L. destruct (skipn start s) as [|c r] eqn:E.
    + split; [reflexivity|]. split; [|reflexivity]. intros pre e post X; destruct pre; discriminate.
    + split; [cbn; rewrite app_nil_r; reflexivity|]. split; [|reflexivity]. intros pre e post X.
      destruct pre as [|x pre]; [injection X as <- <-|injection X as _ X; destruct pre; discriminate]. cbn in *. split; [discriminate|]. split; lia.
  - destruct I as (I1 & I2 & I3). destruct (IH j I3) as (A & B & D). pose proof (increasing_le I3) as I4.
    pose proof (slice_length s start i ltac:(lia)) as L1. pose proof (slice_length s i j ltac:(lia)) as L2.
    set (x1 := match slice s start i with [] => [] | u => [OnUnmatched u start (Some i)] end).
    set (x2 := match slice s i j with [] => [] | u => [OnMatched u i j] end).
    assert (E1 : concat (map piece_of x1) = slice s start i) by (subst x1; destruct (slice s start i); cbn; [reflexivity|]; rewrite app_nil_r; reflexivity).
    assert (E2 : concat (map piece_of x2) = slice s i j) by (subst x2; destruct (slice s i j); cbn; [reflexivity|]; rewrite app_nil_r; reflexivity).
    split; [|split].
    + rewrite !map_app, !concat_app, A, E1, E2, slice_app by lia. apply slice_app. lia.
    + intros pre e post X.
      assert (Y : (pre = [] /\ x1 = [e]) \/ (pre = x1 /\ x2 = [e]) \/ exists pre', pre = x1 ++ x2 ++ pre' /\ tokenize_loop s j ms = pre' ++ e :: post).
      { assert (Hx1 : x1 = [] \/ exists y, x1 = [y]) by (subst x1; destruct (slice s start i); eauto).
        assert (Hx2 : x2 = [] \/ exists y, x2 = [y]) by (subst x2; destruct (slice s i j); eauto).
        clearbody x1 x2. destruct Hx1 as [->|(y1 & ->)], Hx2 as [->|(y2 & ->)]; cbn in *.
        - right. right. exists pre. auto.
        - destruct pre as [|z pre]; [injection X as -> X; auto|]. injection X as -> X. right. right. exists pre. auto.
        - destruct pre as [|z pre]; [injection X as -> X; auto|]. injection X as -> X. right. right. exists pre. auto.
        - destruct pre as [|z pre]; [injection X as -> X; auto|]. injection X as -> X. destruct pre as [|z' pre]; [injection X as -> X; auto|]. injection X as -> X. right. right. exists pre. auto. }
      destruct Y as [(-> & Y)|[(-> & Y)|(pre' & -> & Y)]].
      * subst x1. destruct (slice s start i); [discriminate|]. injection Y as <-. cbn in *. split; [discriminate|]. lia.
      * rewrite E1, L1. subst x2. destruct (slice s i j); [discriminate|]. injection Y as <-. cbn in *. split; [discriminate|]. lia.
      * rewrite !map_app, !concat_app, !app_length, E1, E2, L1, L2. destruct (B pre' e post Y) as (B1 & B2 & B3). split; [exact B1|]. split; [|exact B3]. lia.
    + rewrite !flat_map_app, D. cbn [filter fst snd].
      assert (F1 : flat_map matched_at x1 = []) by (subst x1; destruct (slice s start i); reflexivity). rewrite F1. cbn [app].
      subst x2. destruct (Nat.eqb_spec i j) as [->|N]; cbn [negb].
      * rewrite Nat.sub_diag in L2. destruct (slice s j j); [reflexivity|discriminate].
      * destruct (slice s i j); [cbn in L2; lia|reflexivity].
Qed.

(** The pieces are not empty, they carry their exact position, they concatenate to the string, and the matched ones are
    the (non-empty) matches. *)
Theorem C32_tokenize {C} (s : list C) ms : increasing 0 (List.length s) ms ->
  concat (map piece_of (tokenize ms s)) = s /\
  (forall pre e post, tokenize ms s = pre ++ e :: post ->
     piece_of e <> [] /\ start_of e = List.length (concat (map piece_of pre)) /\ stop_of (List.length s) e = start_of e + List.length (piece_of e)) /\
  flat_map matched_at (tokenize ms s) = filter (fun m => negb (Nat.eqb (fst m) (snd m))) ms.
Proof. apply (tokenize_loop_spec s 0 ms). Qed.
Print Assumptions C32_tokenize.

Example c32_ex : increasing 0 7 [(1, 3); (3, 3); (3, 4)] /\
  tokenize [(1, 3); (3, 3); (3, 4)] [1; 2; 3; 4; 5; 6; 7] =
  [OnUnmatched [1] 0 (Some 1); OnMatched [2; 3] 1 3; OnMatched [4] 3 4; OnUnmatched [5; 6; 7] 4 None].
Proof. split; [cbn; lia|reflexivity]. Qed.
