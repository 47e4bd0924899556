(** * S_Calls: which parsers a combinator calls, where, in what order, and when it rewinds. *)
From Verif Require Export S_BinExpr S_Iter.

Set Implicit Arguments.

(** How a rewind to a position is recorded. *)
Class Marks (S L : Type) : Type := mark : S -> list L.

(** A sequence that carries a record; rewinding does not undo it but adds to it. *)
Section Logged.
  Context {S A L : Type} {RS : RewindSequence S A} {MK : Marks S L}.

  #[export] Instance rewind_logged : RewindSequence (S * list L) A := {
    anchor x := anchor (fst x);
    rewind x a := match rewind (fst x) a with
                  | Ret s => Ret (s, snd x ++ mark s)
                  | Panic => Panic
                  | UB => UB
                  | OutOfFuel => OutOfFuel
                  end
  }.

  Definition logged {O E} (h : list L) (r : res S O E) : res (S * list L) O E :=
    match r with Ok o s => Ok o (s, h) | Err e s => Err e (s, h) end.

  (** What is recorded from a position on. *)
  Definition record_of : Type := S -> list L -> Prop.

  (** [q] does what [p] does, and adds to the record what [w] says.  (A crash leaves no record.) *)
  Definition tells {O E} (p : pfun S O E) (w : record_of) (q : pfun (S * list L) O E) : Prop :=
    forall s h,
      match p s with
      | Ret r => exists cs, w s cs /\ q (s, h) = Ret (logged (h ++ cs) r)
      | Panic => q (s, h) = Panic
      | UB => q (s, h) = UB
      | OutOfFuel => q (s, h) = OutOfFuel
      end.

  Definition tells_both {O E} (p : dparser S O E) (w : record_of) (q : dparser (S * list L) O E) : Prop :=
    tells (parse p) w (parse q) /\ tells (parse_once p) w (parse_once q).

  Definition tells_iter {St O E} (p : iter St S O E) (w : St -> record_of) (q : iter St (S * list L) O E) : Prop :=
    it_init p = it_init q /\
    forall st s h,
      match it_next p st s with
      | Ret (st', r) => exists cs, w st s cs /\ it_next q st (s, h) = Ret (st', logged (h ++ cs) r)
      | Panic => it_next q st (s, h) = Panic
      | UB => it_next q st (s, h) = UB
      | OutOfFuel => it_next q st (s, h) = OutOfFuel
      end.
End Logged.
Arguments record_of : clear implicits.

(** One call of a parser, recorded with its name and position; and a rewind. *)
Inductive event (N S : Type) : Type := Called (name : N) (s : S) | Rewound (s : S).
Arguments Called {N S} _ _. Arguments Rewound {N S} _.
#[export] Instance marks_event {N S} : Marks S (event N S) := fun s => [Rewound s].
Definition noting {N S O E} (name : N) (p : pfun S O E) : pfun (S * list (event N S)) O E :=
  fun '(s, h) =>
    match p s with
    | Ret r => Ret (logged (h ++ [Called name s]) r)
    | Panic => Panic
    | UB => UB
    | OutOfFuel => OutOfFuel
    end.
Definition noted {N S O E} (name : N) (p : dparser S O E) : dparser (S * list (event N S)) O E :=
  DP (noting name (parse p)) (noting name (parse_once p)).
Definition once {N S} (name : N) : record_of S (event N S) := fun s cs => cs = [Called name s].

(** How often a parser of this name was called. *)
Fixpoint called {N S} (eqb : N -> N -> bool) (n : N) (h : list (event N S)) : nat :=
  match h with
  | [] => 0
  | Called m _ :: h => (if eqb n m then 1 else 0) + called eqb n h
  | Rewound _ :: h => called eqb n h
  end.
Fixpoint rewinds {N S} (h : list (event N S)) : nat :=
  match h with [] => 0 | Called _ _ :: h => rewinds h | Rewound _ :: h => 1 + rewinds h end.

(** ** What each combinator should call *)
Section Spec.
  Context {S L : Type} {MK : Marks S L}.

  Definition succeeds {O E} (a : behaviour S O E) (s : S) : Prop := exists o r, a s (Succ o r).
  Definition misses {O E} (a : behaviour S O E) (s : S) : Prop := exists e, a s (Missed e).

  (** The second alternative is called only if the first misses, and from the same position. *)
  Inductive choice_calls {O0 E0} (a : behaviour S O0 E0) (w0 w1 : record_of S L) : record_of S L :=
  | cc_one s cs : ~ misses a s -> w0 s cs -> choice_calls a w0 w1 s cs
  | cc_two s c0 c1 : misses a s -> w0 s c0 -> w1 s c1 -> choice_calls a w0 w1 s (c0 ++ mark s ++ c1).

  (** The second parser is called only if the first succeeds, where that ends. *)
  Inductive sequence_calls {O0 E0} (a : behaviour S O0 E0) (w0 w1 : record_of S L) : record_of S L :=
  | sc_one s cs : ~ succeeds a s -> w0 s cs -> sequence_calls a w0 w1 s cs
  | sc_two s o m c0 c1 : a s (Succ o m) -> w0 s c0 -> w1 m c1 -> sequence_calls a w0 w1 s (c0 ++ c1).

  (** One call, and a rewind if it misses. *)
  Inductive attempt_calls {O E} (a : behaviour S O E) (w : record_of S L) : record_of S L :=
  | ac_other s cs : ~ misses a s -> w s cs -> attempt_calls a w s cs
  | ac_missed s cs : misses a s -> w s cs -> attempt_calls a w s (cs ++ mark s).

  (** One call after each success. *)
  Inductive repetition_calls {O E} (a : behaviour S O E) (w : record_of S L) : record_of S L :=
  | rc_last s cs : ~ succeeds a s -> attempt_calls a w s cs -> repetition_calls a w s cs
  | rc_more s o m c0 c1 : a s (Succ o m) -> w s c0 -> repetition_calls a w m c1 -> repetition_calls a w s (c0 ++ c1).

  (** A term, then operator and term alternately until one fails. *)
  Definition expression_calls {T TE Op OE} (term : behaviour S T TE) (op : behaviour S Op OE)
    (wt wo : record_of S L) : record_of S L :=
    sequence_calls term wt (repetition_calls (sequence op term) (sequence_calls op wo wt)).

  (** A run of an iterative parser: one call after each item, and [last] at the end. *)
  Inductive run_calls {St O E} (last : S -> list L) (it : iter St S O E) (w : St -> record_of S L) : St -> record_of S L :=
  | run_last st s cs : (forall st' o r, it_next it st s <> Ret (st', Ok (Some o) r)) -> w st s cs -> run_calls last it w st s (cs ++ last s)
  | run_more st s st' o m c0 c1 : it_next it st s = Ret (st', Ok (Some o) m) -> w st s c0 -> run_calls last it w st' m c1 ->
      run_calls last it w st s (c0 ++ c1).
End Spec.
