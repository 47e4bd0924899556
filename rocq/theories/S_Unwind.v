(** * S_Unwind: values whose destructors panic. *)
From Coq Require Import List.

(** How many panic. *)
Definition bad {T} (panics : T -> bool) (vs : list T) : nat := length (filter panics vs).
