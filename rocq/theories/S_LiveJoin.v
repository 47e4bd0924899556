(** * S_LiveJoin: the same parsers on segments that are all there. *)
From Verif Require Export M_LiveJoin S_Live.

Section Spec.
  Context {T : Type} (eqb : T -> T -> bool).

  (** The parser as it is built from the primitive parsers and combinators. *)
  Fixpoint built {O E} (p : lparser T O E) : dparser (chunked T) O E :=
    match p with
    | PAny => any_item
    | PThe x => the_item eqb x
    | PAtom pat => let SG := list_segment eqb in atom pat
    | PLook l => closure (look_parse l)
    | PJoin p0 p1 => Join (built p0) (built p1)
    | PMap p f => Map (built p) f
    | PMapErr p f => MapErr (built p) f
    | PAndThen from p f => AndThen from (built p) f
    | PUnify into0 into1 p => Unify into0 into1 (built p)
    | PUnifyErr into0 into1 p => UnifyErr into0 into1 (built p)
    | PRef p => Ref (built p)
    | PBoxed p => Boxed (built p)
    | PDone o => closure (done o)
    | PFail e => closure (fail e)
    | PThen from p k => closure (fun input =>
        r <- parse (built p) input ;;
        match r with Ok o rest => parse (built (k o)) rest | Err e rest => fail (from e) rest end)
    end.

  (** No atom has the empty pattern, and a parser of the user's own never takes
      more than it saw, gives up at the end and passes over empty segments. *)
  Fixpoint well_made {O E} (p : lparser T O E) : Prop :=
    match p with
    | PAny | PThe _ => True
    | PAtom pat => pat <> []
    | PLook l => modest l /\ steady l
    | PJoin p0 p1 => well_made p0 /\ well_made p1
    | PMap p _ => well_made p
    | PMapErr p _ => well_made p
    | PAndThen _ p _ => well_made p
    | PUnify _ _ p => well_made p
    | PUnifyErr _ _ p => well_made p
    | PRef p => well_made p
    | PBoxed p => well_made p
    | PDone _ | PFail _ => True
    | PThen _ p k => well_made p /\ forall o, well_made (k o)
    end.

  (** The same, but a parser of the user's own may also succeed at the end. *)
  Fixpoint all_honest {O E} (p : lparser T O E) : Prop :=
    match p with
    | PAny | PThe _ => True
    | PAtom pat => pat <> []
    | PLook l => honest l /\ steady l
    | PJoin p0 p1 => all_honest p0 /\ all_honest p1
    | PMap p _ => all_honest p
    | PMapErr p _ => all_honest p
    | PAndThen _ p _ => all_honest p
    | PUnify _ _ p => all_honest p
    | PUnifyErr _ _ p => all_honest p
    | PRef p => all_honest p
    | PBoxed p => all_honest p
    | PDone _ | PFail _ => True
    | PThen _ p k => all_honest p /\ forall o, all_honest (k o)
    end.

  (** The segments that hold anything. *)
  Definition solid (q : list (list T)) : list (list T) :=
    filter (fun s => match s with [] => false | _ => true end) q.

  (** The sequence over [b] has ahead what [s] has, cut in the same places. *)
  Definition same_ahead (x : @shared T) (b : gbuffer) (s : list (list T)) : Prop :=
    exists q, ahead (sh_heap x) (sh_tail x) b q /\ solid q = solid s.
End Spec.
