(** * S_Cost: how much a recursive parser does. *)
From Verif Require Export S_PegOn S_Calls S_Ends.

(** An item parser was called; the sequence was rewound. *)
Inductive tick := Tried | Undid.
#[export] Instance marks_tick {S} : Marks S tick := fun _ => [Undid].

(** An item parser over a sequence that carries the record. *)
Definition ticking {S O E} (p : pfun S O E) : pfun (S * list tick) O E :=
  fun '(s, h) =>
    match p s with
    | Ret r => Ret (logged (h ++ [Tried]) r)
    | Panic => Panic
    | UB => UB
    | OutOfFuel => OutOfFuel
    end.
Definition ticks {S O E} (p : dparser S O E) : dparser (S * list tick) O E :=
  DP (ticking (parse p)) (ticking (parse_once p)).
Definition ticking_prims {S T} (P : prims S T) : prims (S * list tick) T :=
  Prims (ticks (p_any P)) (fun x => ticks (p_the P x)) (fun p => ticks (p_atom P p)).

Section Cost.
  Context {T : Type} (rules : nat -> gexp T).

  (** What should be done for a grammar expression. *)
  Inductive calls : gexp T -> list T -> list tick -> Prop :=
  | ca_any l : calls GAny l [Tried]
  | ca_the x l : calls (GThe x) l [Tried]
  | ca_atom p l : calls (GAtom p) l [Tried]
  | ca_join a b l t m h k : peg rules a l (PSucc t m) -> calls a l h -> calls b m k -> calls (GJoin a b) l (h ++ k)
  | ca_join_not a b l o h : peg rules a l o -> (forall t m, o <> PSucc t m) -> calls a l h -> calls (GJoin a b) l h
  | ca_or a b l o h : peg rules a l o -> o <> PFail -> calls a l h -> calls (GOr a b) l h
  | ca_or_next a b l h k : peg rules a l PFail -> calls a l h -> calls b l k -> calls (GOr a b) l (h ++ Undid :: k)
  | ca_opt a l o h : peg rules a l o -> o <> PFail -> calls a l h -> calls (GOpt a) l h
  | ca_opt_not a l h : peg rules a l PFail -> calls a l h -> calls (GOpt a) l (h ++ [Undid])
  | ca_rep_end a l h : peg rules a l PFail -> calls a l h -> calls (GRep a) l (h ++ [Undid])
  | ca_rep_cut a l h : peg rules a l PCut -> calls a l h -> calls (GRep a) l h
  | ca_rep_more a l t m h k : peg rules a l (PSucc t m) -> calls a l h -> calls (GRep a) m k -> calls (GRep a) l (h ++ k)
  | ca_cut a l h : calls a l h -> calls (GCut a) l h
  | ca_ref i l h : calls (rules i) l h -> calls (GRef i) l h.

  (** How large an expression is, how deep its repetitions are nested, and that
      it calls no parser function. *)
  Fixpoint size (e : gexp T) : nat :=
    match e with
    | GAny | GThe _ | GAtom _ | GRef _ => 1
    | GJoin a b => size a + size b
    | GOr a b => size a + 1 + size b
    | GOpt a | GRep a => size a + 1
    | GCut a => size a
    end.
  Fixpoint nesting (e : gexp T) : nat :=
    match e with
    | GAny | GThe _ | GAtom _ | GRef _ => 0
    | GJoin a b | GOr a b => Nat.max (nesting a) (nesting b)
    | GRep a => Datatypes.S (nesting a)
    | GOpt a | GCut a => nesting a
    end.
  Fixpoint rule_free (e : gexp T) : Prop :=
    match e with
    | GAny | GThe _ | GAtom _ => True
    | GJoin a b | GOr a b => rule_free a /\ rule_free b
    | GOpt a | GRep a | GCut a => rule_free a
    | GRef _ => False
    end.

  (** A criterion for a grammar that does not go back over what it has read.
      [sure i]: rule [i] does not fail (except fatally); [quick i]: if it fails,
      it has read nothing. *)
  Variables sure quick : nat -> bool.
  Fixpoint never_fails (e : gexp T) : bool :=
    match e with
    | GAny | GThe _ | GAtom _ => false
    | GJoin a b => never_fails a && never_fails b
    | GOr a b => never_fails a || never_fails b
    | GOpt _ | GRep _ | GCut _ => true
    | GRef i => sure i
    end.
  Fixpoint fails_at_once (e : gexp T) : bool :=
    match e with
    | GAny | GThe _ | GAtom _ => true
    | GJoin a b => fails_at_once a && never_fails b
    | GOr _ b => fails_at_once b
    | GOpt _ | GRep _ | GCut _ => true
    | GRef i => quick i
    end.
  (** All alternatives but the last, options and what is repeated fail at once. *)
  Fixpoint commits (e : gexp T) : bool :=
    match e with
    | GAny | GThe _ | GAtom _ | GRef _ => true
    | GJoin a b => commits a && commits b
    | GOr a b => fails_at_once a && commits a && commits b
    | GOpt a | GRep a => fails_at_once a && commits a
    | GCut a => commits a
    end.
  Definition committed (n : nat) : Prop := forall i, i < n ->
    (sure i = true -> never_fails (rules i) = true) /\
    (quick i = true -> fails_at_once (rules i) = true) /\
    commits (rules i) = true.
End Cost.
