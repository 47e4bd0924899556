(** * S_Comb: what the combinators are supposed to do, as relations between a
    position and a verdict.  Only API data types (Either, EitherBoth, ...) of
    the crate are used; nothing here mentions how a combinator is written. *)
From Verif Require Export M_Base.

Set Implicit Arguments.

(** What an observer can tell about one run of a parser.  A failure carries its
    error but no position: the API wraps that position in [UnknownLocation]. *)
Inductive crash := CPanic | CUB | CFuel.
Inductive verdict (S O E : Type) : Type :=
| Succ (o : O) (rest : S)   (* success and where the rest of the input starts *)
| Missed (e : E)            (* recoverable failure *)
| Cut (e : E)               (* failure that asks for termination *)
| Crash (k : crash).        (* panic, undefined behaviour, loop budget *)
Arguments Succ {S O E} _ _.
Arguments Missed {S O E} _.
Arguments Cut {S O E} _.
Arguments Crash {S O E} _.

Definition behaviour (S O E : Type) : Type := S -> verdict S O E -> Prop.

(** How a piece of parser code is observed. *)
Definition behaves {S O E} `{ParseError E} (p : pfun S O E) : behaviour S O E :=
  fun s v =>
    match v with
    | Succ o rest => p s = Ret (Ok o rest)
    | Missed e => should_terminate e = false /\ exists l, p s = Ret (Err e l)
    | Cut e => should_terminate e = true /\ exists l, p s = Ret (Err e l)
    | Crash CPanic => p s = Panic
    | Crash CUB => p s = UB
    | Crash CFuel => p s = OutOfFuel
    end.

(** Rewindable sequences.  [reach s s']: [s'] was obtained from [s] by
    advancing.  Rewinding from such an [s'] to the anchor of [s] gives [s]. *)
Record lawful_rewind {S A} `{RewindSequence S A} (reach : S -> S -> Prop) : Prop := {
  reach_refl : forall s, reach s s;
  reach_trans : forall s1 s2 s3, reach s1 s2 -> reach s2 s3 -> reach s1 s3;
  rewind_anchor : forall s s', reach s s' -> rewind s' (anchor s) = Ret s
}.

(** Where a result leaves the sequence. *)
Definition location {S O E} (r : res S O E) : S :=
  match r with Ok _ s => s | Err _ s => s end.

(** A parser that only advances. *)
Definition forward {S O E} (reach : S -> S -> Prop) (p : pfun S O E) : Prop :=
  forall s r, p s = Ret r -> reach s (location r).

(** Ordered choice. *)
Inductive choice {S O0 E0 O1 E1} (a : behaviour S O0 E0) (b : behaviour S O1 E1)
  : behaviour S (Either O0 O1) (EitherBoth E0 E1) :=
| ch_first s v r : a s (Succ v r) -> choice a b s (Succ (First v) r)
| ch_cut s e : a s (Cut e) -> choice a b s (Cut (BFirst e))
| ch_crash s k : a s (Crash k) -> choice a b s (Crash k)
| ch_second s e v r : a s (Missed e) -> b s (Succ v r) -> choice a b s (Succ (Last v) r)
| ch_cut2 s e0 e : a s (Missed e0) -> b s (Cut e) -> choice a b s (Cut (BLast e))
| ch_miss s e0 e1 : a s (Missed e0) -> b s (Missed e1) -> choice a b s (Missed (BBoth e0 e1))
| ch_crash2 s e0 k : a s (Missed e0) -> b s (Crash k) -> choice a b s (Crash k).

(** Sequencing. *)
Inductive sequence {S O0 E0 O1 E1} (a : behaviour S O0 E0) (b : behaviour S O1 E1)
  : behaviour S (O0 * O1) (Either E0 E1) :=
| sq_ok s x m y r : a s (Succ x m) -> b m (Succ y r) -> sequence a b s (Succ (x, y) r)
| sq_miss1 s e : a s (Missed e) -> sequence a b s (Missed (First e))
| sq_cut1 s e : a s (Cut e) -> sequence a b s (Cut (First e))
| sq_crash1 s k : a s (Crash k) -> sequence a b s (Crash k)
| sq_miss2 s x m e : a s (Succ x m) -> b m (Missed e) -> sequence a b s (Missed (Last e))
| sq_cut2 s x m e : a s (Succ x m) -> b m (Cut e) -> sequence a b s (Cut (Last e))
| sq_crash2 s x m k : a s (Succ x m) -> b m (Crash k) -> sequence a b s (Crash k).

(** Option. *)
Inductive option_spec {S O E} (a : behaviour S O E) : behaviour S (result O E) E :=
| op_some s v r : a s (Succ v r) -> option_spec a s (Succ (ROk v) r)
| op_none s e : a s (Missed e) -> option_spec a s (Succ (RErr e) s)
| op_cut s e : a s (Cut e) -> option_spec a s (Cut e)
| op_crash s k : a s (Crash k) -> option_spec a s (Crash k).

(** [many a s vs s']: consecutive successes of [a] with values [vs] lead from
    [s] to [s']. *)
Inductive many {S O E} (a : behaviour S O E) : S -> list O -> S -> Prop :=
| many_nil s : many a s [] s
| many_cons s v m vs r : a s (Succ v m) -> many a m vs r -> many a s (v :: vs) r.

(** Repetition: maximal munch, leaving the position of the failing attempt. *)
Inductive repetition {S O E} (a : behaviour S O E) : behaviour S (list O * E) E :=
| rp_end s vs r e : many a s vs r -> a r (Missed e) -> repetition a s (Succ (vs, e) r)
| rp_cut s vs r e : many a s vs r -> a r (Cut e) -> repetition a s (Cut e)
| rp_crash s vs r k : many a s vs r -> a r (Crash k) -> repetition a s (Crash k).

(** Changing values only. *)
Inductive on_value {S O E U} (f : O -> U) (a : behaviour S O E) : behaviour S U E :=
| ov_ok s v r : a s (Succ v r) -> on_value f a s (Succ (f v) r)
| ov_miss s e : a s (Missed e) -> on_value f a s (Missed e)
| ov_cut s e : a s (Cut e) -> on_value f a s (Cut e)
| ov_crash s k : a s (Crash k) -> on_value f a s (Crash k).

(** Two behaviours that cannot be told apart. *)
Definition same_behaviour {S O E} (a b : behaviour S O E) : Prop :=
  forall s v, a s v <-> b s v.

(** Consuming a parser and borrowing it give the same results. *)
Definition coherent {S O E} (p : dparser S O E) : Prop := forall s, parse p s = parse_once p s.

(** Re-bracketing of the verdicts of [(a,b),c] into those of [a,(b,c)]. *)
Definition rebracket {S O0 O1 O2 E0 E1 E2}
  (v : verdict S ((O0 * O1) * O2) (Either (Either E0 E1) E2))
  : verdict S (O0 * (O1 * O2)) (Either E0 (Either E1 E2)) :=
  let re e := match e with
              | First (First e) => First e
              | First (Last e) => Last (First e)
              | Last e => Last (Last e)
              end in
  match v with
  | Succ ((x, y), z) r => Succ (x, (y, z)) r
  | Missed e => Missed (re e)
  | Cut e => Cut (re e)
  | Crash k => Crash k
  end.

(** Re-bracketing of ordered choice.  A miss of all three carries all three
    errors; a cut carries the error of the branch that cut. *)
Definition rebracket_value {O0 O1 O2} (v : Either (Either O0 O1) O2) : Either O0 (Either O1 O2) :=
  match v with
  | First (First x) => First x
  | First (Last x) => Last (First x)
  | Last x => Last (Last x)
  end.
