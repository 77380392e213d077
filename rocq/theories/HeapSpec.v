(** Specification of the priority queues. *)
From Verif Require Import Base Heap.

(** A total preorder, and the operators of Python that agree with it. *)
Definition total_preorder {K} (le : K -> K -> Prop) : Prop := (forall a b, le a b \/ le b a) /\ (forall a b c, le a b -> le b c -> le a c).
Definition agree {K} (ks : keys K) (le : K -> K -> Prop) : Prop :=
  (forall a b, key_lt ks a b = false <-> le b a) /\ (forall a b, key_eq ks a b = true <-> le a b /\ le b a).

Section Q.
  Context {X K : Type}.
  Variable le : K -> K -> Prop.
  Variable key : X -> K.
  (** A queue is the list of its elements, in the order of their insertion. The element to pop is the first among those
      with the least key. *)
  Definition first_min (l : list X) (x : X) (l' : list X) : Prop := exists a b, l = a ++ x :: b /\ l' = a ++ b /\
    (forall y, In y a -> ~ le (key y) (key x)) /\ (forall y, In y b -> le (key x) (key y)).
  Inductive op := Push (x : X) | Pop.
  (** [served l ops outs l']: starting from the queue [l], the operations [ops] return [outs] and lead to [l']. *)
  Inductive served : list X -> list op -> list (res X) -> list X -> Prop :=
  | served_nil l : served l [] [] l
  | served_push l x ops outs l' : served (l ++ [x]) ops outs l' -> served l (Push x :: ops) outs l'
  | served_pop l x l1 ops outs l' : first_min l x l1 -> served l1 ops outs l' -> served l (Pop :: ops) (Ok x :: outs) l'
  | served_empty ops outs l' : served [] ops outs l' -> served [] (Pop :: ops) (Raise IndexError :: outs) l'.
End Q.
Arguments op : clear implicits.
Arguments Push {X}. Arguments Pop {X}.

(** Queues whose keys change. An entry is an element with the key that it had when it was pushed, or when decrease_key was
    last called for it. *)
Section Q2.
  Context {X K : Type} {EX : EqDec X}.
  Variable le : K -> K -> Prop.
  (** The entry to pop is the first among those with the least key. *)
  Definition first_least (q : list (K * X)) (e : K * X) (q' : list (K * X)) : Prop := exists a b, q = a ++ e :: b /\ q' = a ++ b /\
    (forall e', In e' a -> ~ le (fst e') (fst e)) /\ (forall e', In e' b -> le (fst e) (fst e')).
  (** [Rekey f]: from now on, to_comparable is [f]. *)
  Inductive qop := QRekey (f : X -> K) | QPush (x : X) | QPop | QDecrease (x : X).
  (** the entries of [x] get the key [k], and keep their places *)
  Definition set_key (x : X) (k : K) (q : list (K * X)) : list (K * X) := map (fun e => if eqb x (snd e) then (k, x) else e) q.
  (** [serves f q ops outs f' q']: starting from the queue [q] and the keys [f]... *)
  Inductive serves : (X -> K) -> list (K * X) -> list qop -> list (res X) -> (X -> K) -> list (K * X) -> Prop :=
  | serves_nil f q : serves f q [] [] f q
  | serves_rekey f g q ops outs f' q' : serves g q ops outs f' q' -> serves f q (QRekey g :: ops) outs f' q'
  | serves_push f q x ops outs f' q' : serves f (q ++ [(f x, x)]) ops outs f' q' -> serves f q (QPush x :: ops) outs f' q'
  | serves_pop f q e q1 ops outs f' q' : first_least q e q1 -> serves f q1 ops outs f' q' -> serves f q (QPop :: ops) (Ok (snd e) :: outs) f' q'
  | serves_empty f ops outs f' q' : serves f [] ops outs f' q' -> serves f [] (QPop :: ops) (Raise IndexError :: outs) f' q'
  | serves_decrease f q x ops outs f' q' : serves f (set_key x (f x) q) ops outs f' q' -> serves f q (QDecrease x :: ops) outs f' q'.
  (** The contract of decrease_key(x): the keys of the entries of [x] do not increase; or there is at most one such entry. *)
  Definition may_decrease (f : X -> K) (q : list (K * X)) (x : X) : Prop :=
    (forall k, In (k, x) q -> le (f x) k) \/ (forall a k b k', q = a ++ (k, x) :: b -> ~ In (k', x) (a ++ b)).
  (** Every call of decrease_key among [ops] respects the contract. *)
  Definition respected (f : X -> K) (q : list (K * X)) (ops : list qop) : Prop :=
    forall ops1 x ops2 outs f' q', ops = ops1 ++ QDecrease x :: ops2 -> serves f q ops1 outs f' q' -> may_decrease f' q' x.
End Q2.
Arguments qop : clear implicits.
Arguments QRekey {X K}. Arguments QPush {X K}. Arguments QPop {X K}. Arguments QDecrease {X K}.
