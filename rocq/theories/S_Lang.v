(** * S_Lang: the words a grammar stands for when its alternatives are read
    without order and its repetitions without greed, and grammars for which that
    makes no difference. *)
From Verif Require Export S_Peg S_Ends.

Section Lang.
  Context {T : Type} (rules : nat -> gexp T).

  (** [w] is a word of [e], and [t] is a way to see that.  This is a context-free
      grammar: nothing is tried, nothing is preferred and no failure is spoken of. *)
  Inductive derives : gexp T -> list T -> gtree T -> Prop :=
  | dv_any x : derives GAny [x] (TItem x)
  | dv_the x : derives (GThe x) [x] TUnit
  | dv_atom p : derives (GAtom p) p TUnit
  | dv_join a b v w s t : derives a v s -> derives b w t -> derives (GJoin a b) (v ++ w) (TPair s t)
  | dv_first a b w t : derives a w t -> derives (GOr a b) w (TFirst t)
  | dv_last a b w t : derives b w t -> derives (GOr a b) w (TLast t)
  | dv_some a w t : derives a w t -> derives (GOpt a) w (TSome t)
  | dv_none a : derives (GOpt a) [] TNone
  | dv_stop a : derives (GRep a) [] (TMany [])
  | dv_more a v w t ts : derives a v t -> derives (GRep a) w (TMany ts) -> derives (GRep a) (v ++ w) (TMany (t :: ts))
  | dv_cut a w t : derives a w t -> derives (GCut a) w t
  | dv_ref i w t : derives (rules i) w t -> derives (GRef i) w t.

  (** One item of lookahead.  [null i]: rule [i] has the empty word; [first i]:
      the items its words begin with; [follow i]: the items that may come after;
      [gentle i]: it does not fail fatally at its first item. *)
  Variable eqb : T -> T -> bool.
  Variables null gentle : nat -> bool.
  Variables first follow : nat -> T -> bool.
  Notation may_be_empty := (may_be_empty null).
  Fixpoint starts (e : gexp T) (x : T) : bool :=
    match e with
    | GAny => true
    | GThe y => eqb y x
    | GAtom p => match p with [] => false | y :: _ => eqb y x end
    | GJoin a b => starts a x || (may_be_empty a && starts b x)
    | GOr a b => starts a x || starts b x
    | GOpt a | GRep a | GCut a => starts a x
    | GRef i => first i x
    end.
  (** Before an item that it does not start with, [e] misses, or reads nothing. *)
  Fixpoint soft (e : gexp T) : bool :=
    match e with
    | GAny | GThe _ | GAtom _ => true
    | GJoin a b => soft a && (negb (may_be_empty a) || soft b)
    | GOr a b => soft a && soft b
    | GOpt a | GRep a => soft a
    | GCut a => may_be_empty a && soft a
    | GRef i => gentle i
    end.
  Definition apart (f g : T -> bool) : Prop := forall x, f x = true -> g x = true -> False.
  (** What may follow before [b], if what may follow [b] is [after]. *)
  Definition then_after (b : gexp T) (after : T -> bool) (x : T) : bool := starts b x || (may_be_empty b && after x).
  (** The next item says which alternative to take and whether to go on. *)
  Fixpoint one_ahead (e : gexp T) (after : T -> bool) : Prop :=
    match e with
    | GAny | GThe _ | GAtom _ => True
    | GJoin a b => one_ahead a (then_after b after) /\ one_ahead b after
    | GOr a b => one_ahead a after /\ one_ahead b after /\ soft a = true /\ may_be_empty a = false /\
        apart (starts a) (starts b) /\ (may_be_empty b = true -> apart (starts a) after)
    | GOpt a => one_ahead a after /\ soft a = true /\ may_be_empty a = false /\ apart (starts a) after
    | GRep a => one_ahead a (fun x => starts a x || after x) /\ soft a = true /\ may_be_empty a = false /\ apart (starts a) after
    | GCut a => one_ahead a after
    | GRef i => forall x, after x = true -> follow i x = true
    end.
  (** The tables are right for the first [n] rules, whose first calls are
      numbered as in [orderly]. *)
  Definition predictive (rank : nat -> nat) (n : nat) : Prop := forall i, i < n ->
    uses n (rules i) /\
    null i = may_be_empty (rules i) /\
    (forall x, first i x = starts (rules i) x) /\
    (gentle i = true -> soft (rules i) = true) /\
    one_ahead (rules i) (follow i) /\
    called_first null rank (rules i) <= rank i.
  (** What comes next may come next. *)
  Definition admits (after : T -> bool) (l : list T) : Prop :=
    match l with [] => True | x :: _ => after x = true end.
End Lang.
