(** * S_Reenter: which calls a waker may make. *)
From Verif Require Import M_Reenter.

(** A call that is harmless inside [wake], when [old] Waits existed before the send: making a Wait, or polling one
    of the Waits from before the send. *)
Definition harmless (old : nat) (c : call) : Prop :=
  match c with DoWait => True | DoPoll w _ => w < old | DoSend | DoPanic => False end.

(** A call that never comes back from inside [wake], when [now] Waits exist, [old] of them from before the send:
    sending, or polling a Wait made since. *)
Definition blocking (old now : nat) (c : call) : Prop :=
  match c with DoSend => True | DoPoll w _ => old <= w < now | _ => False end.

(** How many Waits a list of calls makes. *)
Definition is_wait (c : call) : bool := match c with DoWait => true | _ => false end.
Definition made (cs : list call) : nat := length (filter is_wait cs).
