(** Model of src/pybgl/property_map.py with the dictionaries behind the maps: several maps may share a defaultdict. Misc.v has
    the case of one map with its own dictionary. *)
From Verif Require Import Base.

Section PMap.
  (** keys and values are objects; the hashable ones are the keys *)
  Context {O : Type} `{EqDec O}.
  Variable hashable : O -> bool.

  (** FuncPropertyMap, property_map.py:116-137; IdentityPropertyMap, 159-176; ConstantPropertyMap, 191-209; AssocPropertyMap,
      249-273: a reference to a dictionary. The function of a FuncPropertyMap does not raise (a simplification). *)
  Inductive pmap := FuncMap (f : O -> O) | IdMap | ConstMap (v : O) | AssocMap (ref : nat).

  (** A Python object that may be passed to make_assoc_property_map: a defaultdict, with the value made by its factory if
      it has one, or a plain dict (property_map.py:256-265). *)
  Record store := Store { is_defaultdict : bool; factory : option O; content : dict O O }.
  (** an update of such an object, property_map.py:271-273 *)
  Definition with_content (s : store) (c : dict O O) : store := Store (is_defaultdict s) (factory s) c.
  (** the objects, by reference: self.d in property_map.py:265 *)
  Definition heap := list store.
  (** the object of reference [r] is modified, property_map.py:267-273 *)
  Definition heap_set (h : heap) (r : nat) (s : store) : heap := firstn r h ++ s :: skipn (S r) h.

  (** AssocPropertyMap.__init__, property_map.py:256-265, and make_assoc_property_map, 276-299; [ref] is the object *)
  Definition make_assoc_property_map (h : heap) (ref : nat) : res pmap :=
    match nth_error h ref with
    | Some s => if is_defaultdict s then Ok (AssocMap ref) else Raise TypeError
    | None => Raise TypeError
    end.

  (** [pmap[k]] and get, 302-314; defaultdict.__getitem__ stores the default value of a missing key. *)
  Definition pmap_get (h : heap) (m : pmap) (k : O) : heap * res O :=
    match m with
    | FuncMap f => (h, Ok (f k))
    | IdMap => (h, Ok k)
    | ConstMap v => (h, Ok v)
    | AssocMap r =>
        if hashable k then
          match nth_error h r with
          | None => (h, Raise KeyError)
          | Some s =>
              match dget (content s) k with
              | Some v => (h, Ok v)
              | None => match factory s with
                        | Some v => (heap_set h r (with_content s (dset (content s) k v)), Ok v)
                        | None => (h, Raise KeyError)
                        end
              end
          end
        else (h, Raise TypeError)
    end.
  (** [pmap[k] = v] and put, 317-326: ReadPropertyMap.__setitem__, 99-113; AssocPropertyMap.__setitem__, 271-273 *)
  Definition pmap_put (h : heap) (m : pmap) (k v : O) : heap * res unit :=
    match m with
    | AssocMap r =>
        if hashable k then
          match nth_error h r with
          | None => (h, Raise KeyError)
          | Some s => (heap_set h r (with_content s (dset (content s) k v)), Ok tt)
          end
        else (h, Raise TypeError)
    | _ => (h, Raise RuntimeError)
    end.
  (** [del pmap[k]]: PropertyMap.__delitem__, 57-66, inherited by all the maps *)
  Definition pmap_del (h : heap) (m : pmap) (k : O) : heap * res unit := (h, Raise RuntimeError).

  (** the calls of property_map.py:57-66, 99-113, 134-137, 171-173, 205-207, 267-273, 301-326 *)
  Inductive pmap_op := PGet (m : pmap) (k : O) | PPut (m : pmap) (k v : O) | PDel (m : pmap) (k : O).
  (** The value returned by a read; [None] for the other calls (one call, property_map.py:301-326) *)
  Definition pmap_step (h : heap) (op : pmap_op) : heap * res (option O) :=
    match op with
    | PGet m k => let '(h', r) := pmap_get h m k in (h', rbind r (fun v => Ok (Some v)))
    | PPut m k v => let '(h', r) := pmap_put h m k v in (h', rbind r (fun _ => Ok None))
    | PDel m k => let '(h', r) := pmap_del h m k in (h', rbind r (fun _ => Ok None))
    end.
  (** a sequence of calls (no counterpart in /repo: the callers of property_map.py:301-326) *)
  Fixpoint pmap_run (h : heap) (ops : list pmap_op) : heap * list (res (option O)) :=
    match ops with
    | [] => (h, [])
    | op :: ops' => let '(h1, r) := pmap_step h op in let '(h2, rs) := pmap_run h1 ops' in (h2, r :: rs)
    end.
End PMap.
Arguments pmap : clear implicits. Arguments pmap_op : clear implicits. Arguments store : clear implicits. Arguments heap : clear implicits.
