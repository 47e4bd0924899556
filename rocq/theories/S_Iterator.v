(** * S_Iterator: iterators, and what a loader reports once it is done. *)
From Verif Require Export M_Iterator S_GenSeq S_Utf8.

Set Implicit Arguments.

(** The iterator gives these chunks and then [None]. *)
Inductive yields {T I} (next : iter_next T I) : I -> list (list T) -> I -> Prop :=
| yields_end it it' : next it = (None, it') -> yields next it [] it'
| yields_chunk it c it1 cs it' : next it = (Some c, it1) -> yields next it1 cs it' -> yields next it (c :: cs) it'.

(** [FusedIterator] *)
Definition fused {T I} (next : iter_next T I) : Prop :=
  forall it it', next it = (None, it') -> exists it'', next it' = (None, it'').

(** The source says that it is finished whenever it is asked from here on. *)
Definition over {T E G} (src : source T E G) (g : G) : Prop :=
  exists P : G -> Prop, P g /\ forall g, P g -> exists g', src g = SFinish g' /\ P g'.

Fixpoint loads (cs : list lcall) : nat :=
  match cs with [] => 0 | LLoad _ :: cs' => S (loads cs') | LForce :: cs' => loads cs' end.

(** Two histories went the same way, whatever the sources are left with. *)
Definition same_history {T E G1 G2} (a : comp (list (record T E) * loader T G1)) (b : comp (list (record T E) * loader T G2)) : Prop :=
  match a, b with
  | Ret (rs1, l1), Ret (rs2, l2) => rs1 = rs2 /\ ld_heap l1 = ld_heap l2 /\ ld_tail l1 = ld_tail l2 /\ ld_buf l1 = ld_buf l2
  | Panic, Panic | UB, UB | OutOfFuel, OutOfFuel => True
  | _, _ => False
  end.

(** A load that reports the end and adds nothing. *)
Definition idle_done {T E} (r : record T E) : Prop :=
  exists info tr, r = (ROk info, tr) /\ is_done info = true /\ commited info = 0 /\ uncommited info = 0 /\ accepted (fst tr) = [].
