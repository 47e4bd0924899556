(** * S_RunnerOpen: when a future of the runner's sequence may wait (C92). *)
From Verif Require Export S_Runner.

Section Spec.
  Context {T : Type}.

  (** What had happened when the latest look at the chain ended, if any has. *)
  Fixpoint at_last_look (h : list (@revent T)) : option (list revent) :=
    match h with
    | [] => None
    | ELook :: h => Some h
    | _ :: h => at_last_look h
    end.

  (** A [next] future that has decided to wait, or does. *)
  Definition next_waits (s : @sstate T) : Prop :=
    match s_pc s with
    | SSet _ | SFut2 => True
    | SParked | SFut => s_fut s <> None
    | _ => False
    end.

  (** An [advance] future that has decided to wait, or does. *)
  Definition advance_waits (s : @astate T) : Prop :=
    match a_pc s with
    | AWake | AFut2 => True
    | AParked | AFut => a_fut s <> None
    | _ => False
    end.
End Spec.
