(** * M_Base: outcomes, parse results, errors, rewindable sequences.
    Model only; no proofs. *)
From Coq Require Export List Arith NArith ZArith Lia Bool.
Export ListNotations.

Set Implicit Arguments.

(** Outcome of running a piece of Rust code.
    [Panic]: the thread panics.  [UB]: undefined behaviour (invalid memory
    access, use of the wrong union field, zero-size allocation, ...).
    [OutOfFuel]: the model's loop budget was exhausted; a Rust loop that never
    ends is one for which every budget gives [OutOfFuel]. *)
Inductive comp (A : Type) : Type :=
| Ret (a : A)
| Panic
| UB
| OutOfFuel.
Arguments Ret {A} _.
Arguments Panic {A}.
Arguments UB {A}.
Arguments OutOfFuel {A}.

Definition bind {A B : Type} (m : comp A) (k : A -> comp B) : comp B :=
  match m with
  | Ret a => k a
  | Panic => Panic
  | UB => UB
  | OutOfFuel => OutOfFuel
  end.

Declare Scope comp_scope.
Delimit Scope comp_scope with comp.
Notation "x <- m ;; k" := (bind m (fun x => k))
  (at level 61, m at next level, right associativity) : comp_scope.
Notation "' p <- m ;; k" := (bind m (fun p => k))
  (at level 61, p pattern, m at next level, right associativity) : comp_scope.
Open Scope comp_scope.

(** Rust [Result<O, E>] where it is plain data. *)
Inductive result (O E : Type) : Type := ROk (o : O) | RErr (e : E).
Arguments ROk {O E} _.
Arguments RErr {O E} _.

(** crates/parcom-core/src/lib.rs:19
    [type ParseResult<S, O, E> = Result<(O, S), (E, UnknownLocation<S>)>].
    The [UnknownLocation] newtype (crates/parcom-core/src/unknown.rs:4) is
    transparent here: [Err e s] stands for [Err((e, UnknownLocation(s)))]. *)
Inductive res (S O E : Type) : Type := Ok (o : O) (s : S) | Err (e : E) (s : S).
Arguments Ok {S O E} _ _.
Arguments Err {S O E} _ _.

(** The body of one [Parser::parse] or [ParserOnce::parse_once]
    (crates/parcom-core/src/parser.rs:5-35).  The returned future is awaited
    by its only caller, so it is modelled in direct style. *)
Definition pfun (S O E : Type) : Type := S -> comp (res S O E).

(** A Rust parser type with both of its bodies
    (crates/parcom-core/src/parser.rs:5-7 [Parser::parse],
    :30-35 [ParserOnce::parse_once]). *)
Record dparser (S O E : Type) : Type := DP {
  parse : pfun S O E;
  parse_once : pfun S O E
}.
Arguments DP {S O E} _ _.

(** crates/parcom-core/src/parser.rs:9-28: closures are parsers; both bodies
    call the closure. *)
Definition closure {S O E} (f : pfun S O E) : dparser S O E :=
  DP (fun input => f input) (fun input => f input).

(** crates/parcom-util/src/lib.rs:11-13 *)
Definition done {S O E : Type} (output : O) (rest : S) : comp (res S O E) :=
  Ret (Ok output rest).

(** crates/parcom-util/src/lib.rs:15-20; the [Into] conversions of error and
    location are applied by the caller. *)
Definition fail {S O E : Type} (err : E) (rest : S) : comp (res S O E) :=
  Ret (Err err rest).

(** crates/parcom-util/src/either.rs:5-8 *)
Inductive Either (T0 T1 : Type) : Type := First (x : T0) | Last (x : T1).
Arguments First {T0 T1} _.
Arguments Last {T0 T1} _.

(** crates/parcom-util/src/either_both.rs:4-8 *)
Inductive EitherBoth (T0 T1 : Type) : Type :=
| BFirst (x : T0)
| BLast (x : T1)
| BBoth (x : T0) (y : T1).
Arguments BFirst {T0 T1} _.
Arguments BLast {T0 T1} _.
Arguments BBoth {T0 T1} _ _.

(** crates/parcom-util/src/either.rs:11-37: [unwrap_first] / [unwrap_last]. *)
Definition unwrap_first {T0 T1} (e : Either T0 T1) : comp T0 :=
  match e with First x => Ret x | Last _ => Panic end.
Definition unwrap_last {T0 T1} (e : Either T0 T1) : comp T1 :=
  match e with First _ => Panic | Last x => Ret x end.

(** crates/parcom-util/src/either.rs:59-68; the two [Into] conversions are the
    arguments [into0] and [into1]. *)
Definition either_unify {T0 T1 T} (into0 : T0 -> T) (into1 : T1 -> T)
  (e : Either T0 T1) : T :=
  match e with First x => into0 x | Last x => into1 x end.

(** crates/parcom-core/src/never.rs:5-6, an uninhabited enum. *)
Inductive Never : Type := .

(** [[T; N]] *)
Definition array (T : Type) (n : nat) : Type := {l : list T | length l = n}.

(** crates/parcom-core/src/never.rs:3, an [unsafe] marker trait without methods,
    and its implementations: never.rs:7-10, either.rs:71, either_both.rs:34.
    Implementations outside of the repository are not considered. *)
Inductive ShouldNever : Type -> Prop :=
| sn_never : ShouldNever Never
| sn_result T E : ShouldNever T -> ShouldNever E -> ShouldNever (result T E)
| sn_array T n : ShouldNever T -> ShouldNever (array T n)
| sn_either T0 T1 : ShouldNever T0 -> ShouldNever T1 -> ShouldNever (Either T0 T1)
| sn_either_both T0 T1 : ShouldNever T0 -> ShouldNever T1 -> ShouldNever (EitherBoth T0 T1).
Existing Class ShouldNever.

(** crates/parcom-core/src/never.rs:12-19: [unreachable!]. *)
Definition never {N : Type} `{ShouldNever N} {T : Type} (_ : N) : comp T := Panic.

(** crates/parcom-util/src/either.rs:39-57 *)
Definition either_always_first {T0 T1} `{ShouldNever T1} (e : Either T0 T1) : comp T0 :=
  match e with First x => Ret x | Last e => never e end.
Definition either_always_last {T0 T1} `{ShouldNever T0} (e : Either T0 T1) : comp T1 :=
  match e with First e => never e | Last x => Ret x end.

(** crates/parcom-util/src/either_both.rs:11-31 *)
Definition both_always_first {T0 T1} `{ShouldNever T1} (e : EitherBoth T0 T1) : comp T0 :=
  match e with BFirst x => Ret x | BLast e => never e | BBoth _ e => never e end.
Definition both_always_last {T0 T1} `{ShouldNever T0} (e : EitherBoth T0 T1) : comp T1 :=
  match e with BFirst e => never e | BLast x => Ret x | BBoth e _ => never e end.

(** crates/parcom-core/src/parse_error.rs:1-3 *)
Class ParseError (E : Type) : Type := should_terminate : E -> bool.

(** crates/parcom-util/src/error.rs:3-10 and 18-25 *)
Inductive Fatal (E : Type) : Type := MkFatal (e : E).
Inductive Miss (E : Type) : Type := MkMiss (e : E).
Arguments MkFatal {E} _.
Arguments MkMiss {E} _.

#[export] Instance pe_fatal {E} : ParseError (Fatal E) := fun _ => true.
#[export] Instance pe_miss {E} : ParseError (Miss E) := fun _ => false.

(** crates/parcom-core/src/parse_error.rs:11-18 *)
#[export] Instance pe_option {E} `{ParseError E} : ParseError (option E) :=
  fun o => match o with Some v => should_terminate v | None => false end.

(** crates/parcom-core/src/never.rs:42-46: [unreachable!()], on no value. *)
#[export] Instance pe_never : ParseError Never := fun n => match n with end.

(** crates/parcom-util/src/either.rs:73-80 *)
#[export] Instance pe_either {T0 T1} `{ParseError T0} `{ParseError T1} :
  ParseError (Either T0 T1) :=
  fun e => match e with
           | First e => should_terminate e
           | Last e => should_terminate e
           end.

(** crates/parcom-util/src/either_both.rs:36-44 *)
#[export] Instance pe_eitherboth {T0 T1} `{ParseError T0} `{ParseError T1} :
  ParseError (EitherBoth T0 T1) :=
  fun e => match e with
           | BFirst e => should_terminate e
           | BLast e => should_terminate e
           | BBoth e0 e1 => should_terminate e0 || should_terminate e1
           end.

(** crates/parcom-core/src/sequence.rs:29-35 [RewindSequence].  [rewind] may
    panic (slice.rs:40, str.rs:42) and is a [Ready] future or awaited at once,
    hence [comp]. *)
Class RewindSequence (S A : Type) : Type := {
  anchor : S -> A;
  rewind : S -> A -> comp S
}.

(** Replace the [i]-th element. *)
Fixpoint list_set {X} (l : list X) (i : nat) (x : X) : list X :=
  match l, i with
  | [], _ => []
  | _ :: l', 0 => x :: l'
  | y :: l', Datatypes.S i' => y :: list_set l' i' x
  end.
