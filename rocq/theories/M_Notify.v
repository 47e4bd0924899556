(** * M_Notify: crates/parcom-internals/src/future/notify.rs as an interleaving
    transition system.  Model only; no proofs.
    Every atomic load or addition, lock, unlock, slab operation and wake-up is
    one step; threads are numbered and any number of them run at once, each
    performing any sequence of [send], [wait] and [poll] calls.  All atomics are
    [SeqCst] in the code, so interleaving is the memory model.  The history is a
    ghost: nothing reads it.
    Simplifications: [Slab] (external crate) is a map whose [insert] picks any
    free key and whose [remove] panics on a free key; a wake-up is recorded and
    does not call back into the same [Notify]; no waker panics (no poisoning). *)
From Verif Require Export M_Base.

Set Implicit Arguments.

Definition tid := nat.   (* a thread *)
Definition wid := nat.   (* a [Wait] value *)
Definition pid := nat.   (* one call of [poll], with the waker it was given *)

Inductive poll_result := Ready | Pending.

Inductive nevent :=
| EWait (w : wid)                     (* the load of [wait()]: w exists from here *)
| ESendBegin (t : tid)
| EInc                                (* fetch_add of [send] *)
| ESendEnd (n : nat)                  (* the send that made the n-th addition returns *)
| EPollBegin (p : pid) (w : wid)
| ERegister (p : pid)                 (* the waker of p enters the slab *)
| EWake (p : pid)                     (* the waker of p is woken *)
| EPollEnd (p : pid) (r : poll_result).

(** Program counters. *)
Inductive pc :=
| Idle
| WaitLoad                            (* notify.rs:34, before the load *)
| SendAdd                             (* notify.rs:26 *)
| SendLock (n : nat)                  (* 27; n: its addition was the n-th *)
| SendDrain (n : nat)                 (* 28-30, lock held *)
| PollLoad1 (p : pid) (w : wid)       (* 55 *)
| PollLock (p : pid) (w : wid)        (* 60 *)
| PollInsert (p : pid) (w : wid)      (* 61, lock held *)
| PollLoad2 (p : pid) (w : wid) (key : nat)   (* 63, lock held *)
| PollRemove (p : pid) (key : nat)    (* 64, lock held *)
| PollUnlock (p : pid) (r : poll_result)      (* 65 and end of scope, or 67: lock held *)
| Panicked.

Record nstate := NState {
  version : nat;
  lock : option tid;
  slab : list (nat * pid);
  threads : tid -> pc;
  waits : list nat;                   (* the [version] field of each Wait *)
  next_pid : pid;
  hist : list nevent                  (* newest first *)
}.

(** notify.rs:17-22 *)
Definition ninit : nstate := NState 0 None [] (fun _ => Idle) [] 0 [].

Definition upd (f : tid -> pc) (t : tid) (c : pc) : tid -> pc :=
  fun t' => if Nat.eqb t' t then c else f t'.

(** How many additions there were. *)
Definition is_inc (e : nevent) : bool := match e with EInc => true | _ => false end.
Definition incs (h : list nevent) : nat := length (filter is_inc h).

Section Steps.
  (** The number of values of [usize]. *)
  Variable modulus : nat.

  (** [nstep t s s']: thread [t] makes a step. *)
  Inductive nstep (t : tid) (s : nstate) : nstate -> Prop :=
  (* notify.rs:33-39 wait *)
  | st_wait :
      threads s t = Idle ->
      nstep t s (NState (version s) (lock s) (slab s) (upd (threads s) t WaitLoad) (waits s) (next_pid s) (hist s))
  | st_wait_load :
      threads s t = WaitLoad ->
      nstep t s (NState (version s) (lock s) (slab s) (upd (threads s) t Idle)
                        (waits s ++ [version s]) (next_pid s) (EWait (length (waits s)) :: hist s))
  (* notify.rs:25-31 send *)
  | st_send :
      threads s t = Idle ->
      nstep t s (NState (version s) (lock s) (slab s) (upd (threads s) t SendAdd) (waits s) (next_pid s)
                        (ESendBegin t :: hist s))
  | st_send_add :
      threads s t = SendAdd ->
      nstep t s (NState ((version s + 1) mod modulus) (lock s) (slab s)
                        (upd (threads s) t (SendLock (incs (hist s) + 1))) (waits s) (next_pid s) (EInc :: hist s))
  | st_send_lock n :
      threads s t = SendLock n -> lock s = None ->
      nstep t s (NState (version s) (Some t) (slab s) (upd (threads s) t (SendDrain n)) (waits s) (next_pid s) (hist s))
  | st_send_wake n k p sl1 sl2 :
      threads s t = SendDrain n -> slab s = sl1 ++ (k, p) :: sl2 ->
      nstep t s (NState (version s) (lock s) (sl1 ++ sl2) (threads s) (waits s) (next_pid s) (EWake p :: hist s))
  | st_send_end n :
      threads s t = SendDrain n -> slab s = [] ->
      nstep t s (NState (version s) None (slab s) (upd (threads s) t Idle) (waits s) (next_pid s)
                        (ESendEnd n :: hist s))
  (* notify.rs:51-70 poll *)
  | st_poll w :
      threads s t = Idle -> w < length (waits s) ->
      nstep t s (NState (version s) (lock s) (slab s) (upd (threads s) t (PollLoad1 (next_pid s) w)) (waits s)
                        (next_pid s + 1) (EPollBegin (next_pid s) w :: hist s))
  | st_poll_load1 p w :
      threads s t = PollLoad1 p w ->
      nstep t s (if Nat.eqb (nth w (waits s) 0) (version s)
                 then NState (version s) (lock s) (slab s) (upd (threads s) t (PollLock p w)) (waits s) (next_pid s) (hist s)
                 else NState (version s) (lock s) (slab s) (upd (threads s) t Idle) (waits s) (next_pid s)
                             (EPollEnd p Ready :: hist s))
  | st_poll_lock p w :
      threads s t = PollLock p w -> lock s = None ->
      nstep t s (NState (version s) (Some t) (slab s) (upd (threads s) t (PollInsert p w)) (waits s) (next_pid s) (hist s))
  | st_poll_insert p w k :
      threads s t = PollInsert p w -> ~ In k (map fst (slab s)) ->
      nstep t s (NState (version s) (lock s) ((k, p) :: slab s) (upd (threads s) t (PollLoad2 p w k)) (waits s)
                        (next_pid s) (ERegister p :: hist s))
  | st_poll_load2 p w k :
      threads s t = PollLoad2 p w k ->
      nstep t s (NState (version s) (lock s) (slab s)
                        (upd (threads s) t (if Nat.eqb (nth w (waits s) 0) (version s)
                                            then PollUnlock p Pending else PollRemove p k))
                        (waits s) (next_pid s) (hist s))
  | st_poll_remove p k :
      threads s t = PollRemove p k ->
      nstep t s (NState (version s) (lock s) (filter (fun e => negb (Nat.eqb (fst e) k)) (slab s))
                        (upd (threads s) t (if existsb (fun e => Nat.eqb (fst e) k) (slab s)
                                            then PollUnlock p Ready else Panicked))
                        (waits s) (next_pid s) (hist s))
  | st_poll_unlock p r :
      threads s t = PollUnlock p r ->
      nstep t s (NState (version s) None (slab s) (upd (threads s) t Idle) (waits s) (next_pid s)
                        (EPollEnd p r :: hist s)).

  Inductive nreach : nstate -> Prop :=
  | nr_init : nreach ninit
  | nr_step t s s' : nreach s -> nstep t s s' -> nreach s'.

  (** Steps that go on with a call already begun. *)
  Definition begins (s : nstate) (t : tid) : Prop := threads s t = Idle.

  (** Any number of steps. *)
  Inductive nsteps : nstate -> nstate -> Prop :=
  | ns_refl s : nsteps s s
  | ns_step t s s1 s2 : ~ begins s t -> nstep t s s1 -> nsteps s1 s2 -> nsteps s s2.
End Steps.
