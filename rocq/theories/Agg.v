(** Model of src/pybgl/aggregated_visitor.py, the visitors being functions on their own states. *)
From Verif Require Import Base Search.

Section Agg.
  Context {E St : Type}.
  (** AggregatedVisitor.__getattr__, aggregated_visitor.py:21-33: the wrapper calls the method of each visitor in turn; what they
      return is dropped, an exception stops the loop. *)
  Fixpoint agg_wrapper (visitors : list (event E -> St -> res St)) (x : event E) (sts : list St) : res (list St) :=
    match visitors, sts with
    | vis :: visitors', st :: sts' => rbind (vis x st) (fun st => rbind (agg_wrapper visitors' x sts') (fun sts => Ok (st :: sts)))
    | _, _ => Ok []
    end.
  (** The aggregated visitor given to a search, aggregated_visitor.py:7-33. [Ask] is not a method of the visitor but a call to
      if_push (depth_first_search.py:149), which the visitors do not receive. *)
  Definition AggregatedVisitor (visitors : list (event E -> St -> res St)) (x : event E) (sts : list St) : res (list St) :=
    match x with Ask _ => Ok sts | _ => agg_wrapper visitors x sts end.
End Agg.
