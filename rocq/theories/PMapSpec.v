(** What a history of reads, writes and deletions should return, without dictionaries. *)
From Verif Require Import Base PMap.

Section PMap.
  Context {O : Type} `{EqDec O}.
  Variable hashable : O -> bool.

  (** The maps made on the objects of the heap [h] *)
  Definition made_on (h : heap O) (m : pmap O) : Prop := match m with AssocMap r => make_assoc_property_map h r = Ok m | _ => True end.
  Definition map_of (op : pmap_op O) : pmap O := match op with PGet m _ | PPut m _ _ | PDel m _ => m end.

  (** The last value written under [k] through any map on the object [r], in a history whose latest call comes first *)
  Fixpoint last_put (hist : list (pmap_op O)) (r : nat) (k : O) : option O :=
    match hist with
    | [] => None
    | PPut (AssocMap r') k' v :: hist' => if eqb r' r && eqb k' k && hashable k' then Some v else last_put hist' r k
    | _ :: hist' => last_put hist' r k
    end.
  (** The calls that put the key [k] in the object [r]: the writes, and the reads if there is a default value *)
  Definition touches (h : heap O) (op : pmap_op O) (r : nat) (k : O) : Prop :=
    hashable k = true /\ (op = PGet (AssocMap r) k /\ (exists s v, nth_error h r = Some s /\ factory s = Some v) \/ exists v, op = PPut (AssocMap r) k v).

  (** The value of a key: the last one written, else the initial one, else the default one, else none *)
  Definition first_of (x y : option O) : option O := match x with Some v => Some v | None => y end.
  Definition expected (h : heap O) (hist : list (pmap_op O)) (op : pmap_op O) : res (option O) :=
    match op with
    | PDel _ _ => Raise RuntimeError
    | PPut (AssocMap _) k _ => if hashable k then Ok None else Raise TypeError
    | PPut _ _ _ => Raise RuntimeError
    | PGet (FuncMap f) k => Ok (Some (f k))
    | PGet IdMap k => Ok (Some k)
    | PGet (ConstMap v) _ => Ok (Some v)
    | PGet (AssocMap r) k =>
        if hashable k then
          match nth_error h r with
          | Some s => match first_of (last_put hist r k) (first_of (dget (content s) k) (factory s)) with Some v => Ok (Some v) | None => Raise KeyError end
          | None => Raise KeyError
          end
        else Raise TypeError
    end.
End PMap.
