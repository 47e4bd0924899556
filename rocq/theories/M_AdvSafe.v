(** * M_AdvSafe: the unsafe block of
    crates/parcom-runners/src/default_runner/sequence/advance.rs: a future that
    keeps its sequence and, beside it, a [Wait<'static>] that points into the
    [Arc<Notify>] of that sequence.  Model only; no proofs.
    What matters here is which handles of the [Arc] exist and when the [Wait] is
    alive; what [Notify], the buffer and the done flag answer is left open (any
    answer, panics included).  [Wait] has no [Drop]; dropping it only ends it.
    The allocation is freed with the last handle. *)
From Coq Require Export List Arith Bool.
Export ListNotations.

(** advance.rs:9-17; a struct drops its fields in the order of declaration. *)
Inductive field := FFut | FSequence | FRemain.
Definition declared : list field := [FFut; FSequence; FRemain].

Inductive apoint :=
| Between                          (* no call is running *)
| AtFut                            (* 41 *)
| AtWait                           (* 44-47 *)
| AtSet                            (* 48 *)
| AtAdvance                        (* 50-51 *)
| AtCheck                          (* 53 *)
| AtClear                          (* 55 *)
| AtTake                           (* 58 *)
| Dropping (fields : list field)   (* drop glue, fields still to be dropped *)
| Gone                             (* dropped *)
| Undefined.                       (* memory was read after it was freed *)

Record afuture := AFuture {
  fut : bool;                      (* this.fut is Some: a Wait is stored *)
  local : bool;                    (* the variable [fut] of 44 holds a Wait *)
  sequence : bool;                 (* this.sequence is Some *)
  handed : bool;                   (* the sequence was returned, the caller has it *)
  others : nat;                    (* further handles of the Arc *)
  at_ : apoint
}.

(** Strong count of the [Arc<Notify>]. *)
Definition handles (s : afuture) : nat :=
  (if sequence s then 1 else 0) + (if handed s then 1 else 0) + others s.

Section Steps.
  (** The order in which the fields are dropped. *)
  Variable order : list field.

  Inductive ustep : afuture -> afuture -> Prop :=
  (* 39-40; without the sequence [unwrap] panics and the caller gets the future back *)
  | us_poll f k n : ustep (AFuture f false true k n Between) (AFuture f false true k n AtFut)
  | us_poll_none f k n : ustep (AFuture f false false k n Between) (AFuture f false false k n Between)
  (* 41: OptionFuture::none() is ready; otherwise Wait::poll reads the Notify
     and is ready, pending, or panics on a poisoned lock *)
  | us_fut_none l q k n : ustep (AFuture false l q k n AtFut) (AFuture false l q k n AtWait)
  | us_fut_freed l q k n : handles (AFuture true l q k n AtFut) = 0 ->
      ustep (AFuture true l q k n AtFut) (AFuture true l q k n Undefined)
  | us_fut_ready l q k n : handles (AFuture true l q k n AtFut) <> 0 ->
      ustep (AFuture true l q k n AtFut) (AFuture true l q k n AtWait)
  | us_fut_stop l q k n : handles (AFuture true l q k n AtFut) <> 0 ->
      ustep (AFuture true l q k n AtFut) (AFuture true l q k n Between)
  (* 44-47: [wait] reads the Notify through the sequence *)
  | us_wait f l q k n : handles (AFuture f l q k n AtWait) <> 0 ->
      ustep (AFuture f l q k n AtWait) (AFuture f true q k n AtSet)
  | us_wait_freed f l q k n : handles (AFuture f l q k n AtWait) = 0 ->
      ustep (AFuture f l q k n AtWait) (AFuture f l q k n Undefined)
  (* 48: the old Wait is dropped, the new one stored *)
  | us_set f l q k n : ustep (AFuture f l q k n AtSet) (AFuture l false q k n AtAdvance)
  (* 50-51: may panic *)
  | us_advance f l q k n : ustep (AFuture f l q k n AtAdvance) (AFuture f l q k n AtCheck)
  | us_advance_panic f l q k n : ustep (AFuture f l q k n AtAdvance) (AFuture f l q k n Between)
  (* 53, 62-64 *)
  | us_finished f l q k n : ustep (AFuture f l q k n AtCheck) (AFuture f l q k n AtClear)
  | us_pending f l q k n : ustep (AFuture f l q k n AtCheck) (AFuture f l q k n Between)
  (* 55 *)
  | us_clear f l q k n : ustep (AFuture f l q k n AtClear) (AFuture false l q k n AtTake)
  (* 58-59 *)
  | us_take f l k n : ustep (AFuture f l true k n AtTake) (AFuture f l false true n Between)
  (* drop of the future, whether finished or not *)
  | us_drop f q k n : ustep (AFuture f false q k n Between) (AFuture f false q k n (Dropping order))
  | us_drop_fut f l q k n fs :
      ustep (AFuture f l q k n (Dropping (FFut :: fs))) (AFuture false l q k n (Dropping fs))
  | us_drop_sequence f l q k n fs :
      ustep (AFuture f l q k n (Dropping (FSequence :: fs))) (AFuture f l false k n (Dropping fs))
  | us_drop_remain f l q k n fs :
      ustep (AFuture f l q k n (Dropping (FRemain :: fs))) (AFuture f l q k n (Dropping fs))
  | us_gone f l q k n : ustep (AFuture f l q k n (Dropping [])) (AFuture f l q k n Gone)
  (* the caller drops the sequence it was given; other handles come and go *)
  | us_caller f l q n p : ustep (AFuture f l q true n p) (AFuture f l q false n p)
  | us_clone f l q k n p : handles (AFuture f l q k n p) <> 0 ->
      ustep (AFuture f l q k n p) (AFuture f l q k (S n) p)
  | us_release f l q k n p : ustep (AFuture f l q k (S n) p) (AFuture f l q k n p).

  (** 19-30: [advance(delta)] has just been called; [n] clones exist. *)
  Definition ustart (n : nat) : afuture := AFuture false false true false n Between.

  Inductive ureach (n : nat) : afuture -> Prop :=
  | ur_start : ureach n (ustart n)
  | ur_step s s' : ureach n s -> ustep s s' -> ureach n s'.
End Steps.
