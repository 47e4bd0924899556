(** * S_Drop: what should be left of a load that is dropped, on flat lists. *)
From Verif Require Import M_Drop S_GenSeq.

Set Implicit Arguments.

(** How far the source had come when it was dropped. *)
Inductive progress := NotStarted | Wrote | Advancing | Cancelling | Finishing.

Section Progress.
  Context {T E G : Type} (src : source T E G).

  Definition progress_of (st : stage) (a : sact T E G) (en : option wend) : progress :=
    match st, a, en with
    | BeforeControl, _, _ => NotStarted
    | Writing _, SRequest _ _, _ => Wrote
    | Writing _, _, _ => NotStarted
    | Answered, _, Some EndAdvance => Advancing
    | Answered, _, Some EndCancel => Cancelling
    | Answered, _, Some EndFinish => Finishing
    | Answered, _, _ => NotStarted
    end.

  (** The requested size is free in the loader's buffer. *)
  Definition fits (l : loader T G) : bool :=
    match src (ld_source l) with
    | SRequest n _ => n <=? vcap (ld_buf l) - vlen (ld_buf l)
    | _ => true
    end.

  (** How the source's own run ends. *)
  Definition ends (grow : nat -> nat) (l : loader T G) : option wend :=
    match run_source (gcontrol T E grow) (ld_buf l) (src (ld_source l)) with
    | Ret (_, _, _, en) => Some en
    | _ => None
    end.
End Progress.

(** The code: [old] was buffered before, [new] has been written since; [fits]:
    the requested size was free in the loader's buffer. *)
Definition left_over {T} (p : progress) (fits : bool) (old new : list T) : list T :=
  match p with
  | NotStarted => old
  | Wrote | Advancing => if fits then old ++ new else new
  | Cancelling => if fits then old else []
  | Finishing => []
  end.

(** Calls on a loader, some of whose loads are dropped. *)
Inductive dcall (G : Type) :=
| DLoad (grow : nat -> nat)
| DForce
| DDrop (grow : nat -> nat) (st : stage) (g' : G).
Arguments DLoad {G}. Arguments DForce {G}. Arguments DDrop {G}.

Fixpoint drop_all {T E G} (src : source T E G) (cs : list (dcall G)) (l : loader T G) : comp (loader T G) :=
  match cs with
  | [] => Ret l
  | DLoad grow :: cs' => ' (_, l1, _) <- load src grow l ;; drop_all src cs' l1
  | DForce :: cs' => l1 <- force_commit l ;; drop_all src cs' l1
  | DDrop grow st g' :: cs' => ' (l1, _) <- load_dropped src grow st g' l ;; drop_all src cs' l1
  end.
