(** * S_AdvSafe: what the SAFETY comment of advance.rs claims. *)
From Verif Require Export M_AdvSafe.

(** Some [Wait] still points to the [Notify]. *)
Definition wait_alive (s : afuture) : Prop := fut s = true \/ local s = true.
(** The last handle is gone, so the [Notify] is. *)
Definition notify_freed (s : afuture) : Prop :=
  sequence s = false /\ handed s = false /\ others s = 0.
Definition dangling (s : afuture) : Prop := wait_alive s /\ notify_freed s.
(** The order of declaration puts [fut] before [sequence]. *)
Definition fut_first (order : list field) : Prop :=
  forall a b, order = a ++ FSequence :: b -> In FFut a.
