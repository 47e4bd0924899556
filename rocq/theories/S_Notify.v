(** * S_Notify: what a history of calls on a Notify should satisfy.
    Histories are newest first: what comes later in the list happened earlier. *)
From Coq Require Import List Arith.
From Verif Require Import M_Notify.
Import ListNotations.

(** The number of additions after [w] was created. *)
Fixpoint sends_since (w : wid) (h : list nevent) : nat :=
  match h with
  | [] => 0
  | EWait w' :: h' => if Nat.eqb w' w then 0 else sends_since w h'
  | EInc :: h' => 1 + sends_since w h'
  | _ :: h' => sends_since w h'
  end.

(** The [n]-th addition was made after [w] was created. *)
Definition addition_after (w : wid) (n : nat) (h : list nevent) : Prop :=
  exists later between earlier,
    h = later ++ EInc :: between ++ EWait w :: earlier /\ n = incs (between ++ EWait w :: earlier) + 1.

(** The event [a] happened before the event [b]. *)
Definition before (a b : nevent) (h : list nevent) : Prop :=
  exists later between earlier, h = later ++ b :: between ++ a :: earlier.

(** The thread is between taking the lock of the waker list and giving it back. *)
Definition inside_list (c : pc) : Prop :=
  match c with
  | SendDrain _ | PollInsert _ _ | PollLoad2 _ _ _ | PollRemove _ _ | PollUnlock _ _ => True
  | _ => False
  end.
