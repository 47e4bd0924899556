(** * M_ShortVecUnwind: shortvec.rs when destructors of the elements panic and
    when the caller catches a panic and goes on with the vector.
    Model only; no proofs. *)
From Verif Require Export M_ShortVec M_Unwind.

Set Implicit Arguments.

(** What a caller with [catch_unwind] around a call sees. *)
Inductive caught (T : Type) := Replied (r : reply T) | Unwound.
Arguments Replied {T} _.
Arguments Unwound {T}.

Section Unwind.
  Context {T : Type}.
  Variable panics : T -> bool.   (* whose destructor panics *)
  Variable N : nat.
  Variable size_of : nat.
  Variable isize_max : nat.

  Definition log_drops (m : mem T) (ds : list T) : mem T :=
    Mem (blocks m) (log m ++ map (fun v => EDrop v) ds).

  (** shortvec.rs:176-189: what follows [drop_in_place] is not reached when it
      unwinds; no field has drop glue (the union holds [ManuallyDrop]s). *)
  Definition drop_unwind (unwinding : bool) (m : mem T) (self : ShortVec T) : comp (mem T * drop_end) :=
    p <- as_ptr N self ;;
    cells <- cells_of m self p ;;
    vs <- read_cells cells (len self) ;;
    let '(ds, e) := drop_in_place panics unwinding vs in
    let m := log_drops m ds in
    match e with
    | Returns =>
        if is_heap N self then
          layout <- layout_array size_of isize_max (cap self) ;;
          match p with
          | PHeap id => m <- dealloc m id layout ;; Ret (m, Returns)
          | PStack => UB
          end
        else Ret (m, Returns)
    | _ => Ret (m, e)
    end.

  (** [as_slice_mut()[i] = v] (shortvec.rs:75-81): the old value is dropped, and [v]
      is stored even if that unwinds. *)
  Definition assign_unwind (m : mem T) (self : ShortVec T) (i : nat) (v : T)
    : comp (ShortVec T * mem T * drop_end) :=
    vs <- as_slice N m self ;;
    match nth_error vs i with
    | None => Panic
    | Some old =>
        p <- as_ptr N self ;;
        ' r <- ptr_write m self p i v ;;
        let '(ds, e) := drop_in_place panics false [old] in
        Ret (fst r, log_drops (snd r) ds, e)
    end.

  (** The value a call owns while it runs; it is dropped when the call unwinds. *)
  Definition argument (c : call T) : list T :=
    match c with CPush v | CAssign _ v => [v] | _ => [] end.

  (** A call under [catch_unwind].  Every panic of [push], [reserve], [reserve_exact]
      and of an index comes before the vector or the memory is changed: the
      [assert!] and [Layout::array] of shortvec.rs:116-126, the bounds check.
      [None]: the process aborts. *)
  Definition perform_caught (st : ShortVec T * mem T) (c : call T)
    : comp (option (caught T * (ShortVec T * mem T))) :=
    let refused :=
      let '(ds, e) := drop_in_place panics true (argument c) in
      match e with
      | Aborts => Ret None
      | _ => Ret (Some (Unwound, (fst st, log_drops (snd st) ds)))
      end in
    match c with
    | CAssign i v =>
        match assign_unwind (snd st) (fst st) i v with
        | Ret (sv, m, e) => Ret (Some (match e with Returns => Replied RUnit | _ => Unwound end, (sv, m)))
        | Panic => refused
        | UB => UB
        | OutOfFuel => OutOfFuel
        end
    | _ =>
        match perform N size_of isize_max st c with
        | Ret (r, st') => Ret (Some (Replied r, st'))
        | Panic => refused
        | UB => UB
        | OutOfFuel => OutOfFuel
        end
    end.

  Fixpoint perform_all_caught (st : ShortVec T * mem T) (cs : list (call T))
    : comp (option (list (caught T) * (ShortVec T * mem T))) :=
    match cs with
    | [] => Ret (Some ([], st))
    | c :: cs' =>
        r <- perform_caught st c ;;
        match r with
        | None => Ret None
        | Some (u, st') =>
            rs <- perform_all_caught st' cs' ;;
            match rs with
            | None => Ret None
            | Some (us, st'') => Ret (Some (u :: us, st''))
            end
        end
    end.
End Unwind.
