(** * S_Laws: what stays the same when a grammar is refactored. *)
From Verif Require Import S_Comb.

Set Implicit Arguments.

(** What a run comes to, apart from what its error says. *)
Definition outcome {S O E} `{ParseError E} (x : comp (res S O E)) : verdict S O unit :=
  match x with
  | Ret (Ok o r) => Succ o r
  | Ret (Err e _) => if should_terminate e then Cut tt else Missed tt
  | Panic => Crash CPanic
  | UB => Crash CUB
  | OutOfFuel => Crash CFuel
  end.

(** With the value seen through [f]. *)
Definition seen {S O U} (f : O -> U) (v : verdict S O unit) : verdict S U unit :=
  match v with
  | Succ o r => Succ (f o) r
  | Missed e => Missed e
  | Cut e => Cut e
  | Crash k => Crash k
  end.

(** The empty grammar: succeeds where it stands. *)
Definition nothing {S : Type} : dparser S unit Never := closure (fun s => Ret (Ok tt s)).

(** The values of [a b / a c] as those of [a (b / c)], and so on. *)
Definition factor {X Y Z} (v : Either (X * Y) (X * Z)) : X * Either Y Z :=
  match v with First (x, y) => (x, First y) | Last (x, z) => (x, Last z) end.
Definition factor_right {X Y Z} (v : Either (X * Z) (Y * Z)) : Either X Y * Z :=
  match v with First (x, z) => (First x, z) | Last (y, z) => (Last y, z) end.
Definition either_same {X} (v : Either X X) : X := match v with First x => x | Last x => x end.
Definition as_option {X} (v : Either X unit) : option X := match v with First x => Some x | Last _ => None end.
Definition result_option {X E} (v : result X E) : option X := match v with ROk x => Some x | RErr _ => None end.
Definition unrolled {X E} (v : Either (X * (list X * E)) unit) : list X :=
  match v with First (x, (xs, _)) => x :: xs | Last _ => [] end.
