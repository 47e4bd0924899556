(** * M_Reenter: one thread using a [Notify] whose wakers run code of the caller inside [wake]
    (crates/parcom-internals/src/future/notify.rs).  Model only; no proofs.

    M_Notify interleaves threads and takes [wake] as an event.  Here there is one thread, and [wake] runs a
    given list of calls on the same [Notify] before it returns, as an executor that polls inside [wake] does.
    Simplified: the version counter does not wrap. *)
From Coq Require Export List Arith.
Export ListNotations.

(** A call on the [Notify].  [DoPoll w k] polls the [w]-th [Wait] made so far with a waker whose [wake] makes the
    calls [k]; [DoPanic] panics. *)
Inductive call := DoWait | DoPoll (w : nat) (k : list call) | DoSend | DoPanic.

(** What a call answered. *)
Inductive answer := Waited | ReadyNow | PendingNow | Sent.

(** notify.rs:11-15 the struct; [poisoned] is the flag of the std Mutex; [waits] the versions of the Waits made. *)
Record rstate := RState {
  version : nat;
  poisoned : bool;
  wakers : list (list call);
  waits : list nat
}.
Definition rinit : rstate := RState 0 false [] [].

(** [Returned]: all calls returned; [Unwound]: a panic left them; [Stuck]: a thread locked a mutex it holds, which
    never returns (std::sync::Mutex::lock, "Panics"/deadlock clause). *)
Inductive routcome := Returned (s : rstate) | Unwound (s : rstate) | Stuck.

(** The calls of a waker, run by [wake] while notify.rs:28-30 holds the lock. *)
Fixpoint run_locked (cs : list call) (s : rstate) : routcome :=
  match cs with
  | [] => Returned s
  | DoWait :: cs =>                                           (* notify.rs:33-39 *)
      run_locked cs (RState (version s) (poisoned s) (wakers s) (waits s ++ [version s]))
  | DoPoll w _ :: cs =>
      match nth_error (waits s) w with
      | None => Unwound s                                     (* no such Wait: the caller's own indexing panics *)
      | Some v => if negb (v =? version s) then run_locked cs s  (* notify.rs:55-57 *)
                  else Stuck                                  (* notify.rs:60 lock *)
      end
  | DoSend :: _ => Stuck                                      (* notify.rs:27 lock *)
  | DoPanic :: _ => Unwound s
  end.

(** notify.rs:28-30: the loop over the drained wakers; a panic drops the rest of them. *)
Fixpoint drain (ks : list (list call)) (s : rstate) : routcome :=
  match ks with
  | [] => Returned s
  | k :: ks => match run_locked k s with Returned s' => drain ks s' | o => o end
  end.

(** notify.rs:25-31 [send]; leaving by a panic with the guard alive poisons the mutex. *)
Definition send (s : rstate) : routcome :=
  let s1 := RState (version s + 1) (poisoned s) (wakers s) (waits s) in
  if poisoned s then Unwound s1                               (* lock().unwrap() *)
  else match drain (wakers s1) (RState (version s1) (poisoned s1) [] (waits s1)) with
       | Unwound s2 => Unwound (RState (version s2) true (wakers s2) (waits s2))
       | o => o
       end.

(** notify.rs:51-70 [poll], on one thread: the second look at the version sees what the first saw. *)
Definition poll (w : nat) (k : list call) (s : rstate) : routcome * option answer :=
  match nth_error (waits s) w with
  | None => (Unwound s, None)
  | Some v =>
      if negb (v =? version s) then (Returned s, Some ReadyNow)
      else if poisoned s then (Unwound s, None)
      else (Returned (RState (version s) (poisoned s) (wakers s ++ [k]) (waits s)), Some PendingNow)
  end.

(** A call made while nobody holds the lock. *)
Definition run_call (c : call) (s : rstate) : routcome * option answer :=
  match c with
  | DoWait => (Returned (RState (version s) (poisoned s) (wakers s) (waits s ++ [version s])), Some Waited)
  | DoPoll w k => poll w k s
  | DoSend => (send s, match send s with Returned _ => Some Sent | _ => None end)
  | DoPanic => (Unwound s, None)
  end.

(** The states after any series of calls, each of which returned or unwound to a caller who caught the panic. *)
Inductive rreach : rstate -> Prop :=
| rr_init : rreach rinit
| rr_step s c s' : rreach s ->
    (fst (run_call c s) = Returned s' \/ fst (run_call c s) = Unwound s') -> rreach s'.
