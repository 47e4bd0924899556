(** * M_Unwind: drop glue of slices whose elements may panic when dropped
    (used by shortvec.rs:177-181, buffer_writer.rs:75-79, control.rs:118).
    Model only; no proofs. *)
From Verif Require Export M_Base.

Set Implicit Arguments.

(** How a piece of drop glue ends.  A panic while the thread is unwinding already
    aborts the process. *)
Inductive drop_end := Returns | Unwinds | Aborts.

Section Glue.
  Context {T : Type}.
  Variable panics : T -> bool.   (* whose destructor panics *)

  (** [std::ptr::drop_in_place] of a slice: the elements in order.  When the
      destructor of one panics the others are dropped while unwinding.
      [unwinding]: the thread unwinds already.  With the elements whose
      destructors ran. *)
  Fixpoint drop_in_place (unwinding : bool) (vs : list T) : list T * drop_end :=
    match vs with
    | [] => ([], Returns)
    | v :: vs' =>
        if panics v then
          if unwinding then ([v], Aborts)
          else let '(ds, e) := drop_in_place true vs' in
               (v :: ds, match e with Aborts => Aborts | _ => Unwinds end)
        else let '(ds, e) := drop_in_place unwinding vs' in (v :: ds, e)
    end.
End Glue.
