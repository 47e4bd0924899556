(** * S_Ends: when a recursive grammar comes to an answer. *)
From Coq Require Export Relations.
From Verif Require Export S_Peg.

Section Ends.
  Context {T : Type} (rules : nat -> gexp T).

  (** What [e] says of [l] cannot be said before what [e'] says of [l']. *)
  Inductive needs : gexp T * list T -> gexp T * list T -> Prop :=
  | nd_join a b l : needs (GJoin a b, l) (a, l)
  | nd_join_next a b l t m : peg rules a l (PSucc t m) -> needs (GJoin a b, l) (b, m)
  | nd_or a b l : needs (GOr a b, l) (a, l)
  | nd_or_next a b l : peg rules a l PFail -> needs (GOr a b, l) (b, l)
  | nd_opt a l : needs (GOpt a, l) (a, l)
  | nd_rep a l : needs (GRep a, l) (a, l)
  | nd_rep_next a l t m : peg rules a l (PSucc t m) -> needs (GRep a, l) (GRep a, m)
  | nd_cut a l : needs (GCut a, l) (a, l)
  | nd_ref i l : needs (GRef i, l) (rules i, l).

  (** A question comes up that needs its own answer: a parser function called
      again where it was called, or a repetition of nothing. *)
  Definition goes_round (e : gexp T) (l : list T) : Prop :=
    exists x, clos_refl_trans_1n _ needs (e, l) x /\ clos_trans _ needs x x.

  (** Only the first [n] rules are used. *)
  Fixpoint uses (n : nat) (e : gexp T) : Prop :=
    match e with
    | GAny | GThe _ | GAtom _ => True
    | GJoin a b | GOr a b => uses n a /\ uses n b
    | GOpt a | GRep a | GCut a => uses n a
    | GRef i => i < n
    end.

  (** A criterion one can check by looking at the grammar.  [null i]: rule [i]
      may succeed without reading; [rank]: rules are numbered so that a rule
      called before anything was read has a lower number than the caller. *)
  Variable null : nat -> bool.
  Variable rank : nat -> nat.
  Fixpoint may_be_empty (e : gexp T) : bool :=
    match e with
    | GAny | GThe _ => false
    | GAtom p => match p with [] => true | _ => false end
    | GJoin a b => may_be_empty a && may_be_empty b
    | GOr a b => may_be_empty a || may_be_empty b
    | GOpt _ | GRep _ => true
    | GCut a => may_be_empty a
    | GRef i => null i
    end.
  Fixpoint called_first (e : gexp T) : nat :=
    match e with
    | GAny | GThe _ | GAtom _ => 0
    | GJoin a b => Nat.max (called_first a) (if may_be_empty a then called_first b else 0)
    | GOr a b => Nat.max (called_first a) (called_first b)
    | GOpt a | GRep a | GCut a => called_first a
    | GRef i => S (rank i)
    end.
  Fixpoint repeats_something (e : gexp T) : bool :=
    match e with
    | GAny | GThe _ | GAtom _ | GRef _ => true
    | GJoin a b | GOr a b => repeats_something a && repeats_something b
    | GRep a => negb (may_be_empty a) && repeats_something a
    | GOpt a | GCut a => repeats_something a
    end.
  Definition orderly (n : nat) : Prop := forall i, i < n ->
    (may_be_empty (rules i) = true -> null i = true) /\
    called_first (rules i) <= rank i /\
    repeats_something (rules i) = true.
End Ends.
