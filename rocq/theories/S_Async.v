(** * S_Async: what a future comes to, and how often it is pending. *)
From Verif Require Import M_Async.

Set Implicit Arguments.

(** What polling a future until it is ready comes to. *)
Fixpoint settled {X} (t : task X) : comp X :=
  match t with Now x => x | Later t' => settled t' end.

(** How many polls return [Pending]. *)
Fixpoint pendings {X} (t : task X) : nat :=
  match t with Now _ => 0 | Later t' => S (pendings t') end.

(** The direct-style counterparts. *)
Definition settled_sequence {S A} (R : ARewindSequence S A) : RewindSequence S A :=
  {| anchor := a_anchor; rewind := fun s a => settled (a_rewind s a) |}.
Definition settled_parser {S O E} (p : aparser S O E) : dparser S O E :=
  DP (fun s => settled (aparse p s)) (fun s => settled (aparse_once p s)).
Definition settled_iter {St S O E} (i : aiter St S O E) : M_Iter.iter St S O E :=
  IT (ait_init i) (fun st s => settled (ait_next i st s)).
Definition settled_diter {St S O E} (d : aditer St S O E) : diter St S O E :=
  DI (settled_iter (aparse_iterative d)) (settled_iter (aparse_iterative_once d)).

(** Two parsers with the same results on every input. *)
Definition agree {S O E} (p q : dparser S O E) : Prop :=
  forall s, parse p s = parse q s /\ parse_once p s = parse_once q s.
Definition iter_agree {St S O E} (i j : M_Iter.iter St S O E) : Prop :=
  it_init i = it_init j /\ forall st s, it_next i st s = it_next j st s.
Definition diter_agree {St S O E} (d e : diter St S O E) : Prop :=
  iter_agree (parse_iterative d) (parse_iterative e) /\ iter_agree (parse_iterative_once d) (parse_iterative_once e).

(** Never pending. *)
Definition prompt_sequence {S A} (R : ARewindSequence S A) : Prop := forall s a, pendings (a_rewind s a) = 0.
Definition prompt {S O E} (p : aparser S O E) : Prop :=
  forall s, pendings (aparse p s) = 0 /\ pendings (aparse_once p s) = 0.
Definition prompt_iter {St S O E} (d : aditer St S O E) : Prop :=
  forall st s, pendings (ait_next (aparse_iterative d) st s) = 0 /\ pendings (ait_next (aparse_iterative_once d) st s) = 0.
