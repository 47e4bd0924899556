(** * M_WriterUnwind: a source using the writer of the generic sequence
    (buffer_writer.rs, generic/control.rs) when destructors of items panic.
    Model only; no proofs.
    An item whose destructor ran is gone: its cell counts as not initialised.
    Not followed: panics of the writer itself (overflow checks, the [assert!] of
    [shrink_to]), and the destructors of items the source still owns. *)
From Verif Require Export M_GenSeq M_Unwind.

Set Implicit Arguments.

(** The cells [i .. i+n] are left uninitialised. *)
Definition vec_forget {T} (v : vec T) (i n : nat) : vec T :=
  Vec (firstn i (cells v) ++ repeat None (Nat.min n (vcap v - i)) ++ skipn (i + n) (cells v)) (vlen v).

(** All items of a vector, which must be initialised. *)
Fixpoint read_items {T} (cs : list (option T)) (n : nat) : comp (list T) :=
  match n, cs with
  | 0, _ => Ret []
  | S n', Some x :: cs' => xs <- read_items cs' n' ;; Ret (x :: xs)
  | _, _ => UB
  end.

(** How a run ends: the source answers and is left in state [g], or unwinds, leaving the
    loader's buffer as it is, or the process aborts. *)
Inductive uout (T E G : Type) :=
| UAnswer (res : response T E) (buf : vec T) (g : G)
| UUnwound (buf : vec T)
| UAborted.
Arguments UAnswer {T E G}. Arguments UUnwound {T E G}. Arguments UAborted {T E G}.

Section Unwind.
  Context {T E : Type}.
  Variable panics : T -> bool.
  Notation ops := (request_writer_ops T E).

  (** Dropping a [Vec]. *)
  Definition vec_drop (unwinding : bool) (v : vec T) : comp (list T * drop_end) :=
    xs <- read_items (cells v) (vlen v) ;; Ret (drop_in_place panics unwinding xs).

  (** buffer_writer.rs:65-80: [drop_in_place] comes before [set_len].  With the items whose
      destructors ran. *)
  Definition shrink_unwind (r : request T) (new_len : nat) : comp (request T * list T * drop_end) :=
    len <- bw_len ops r ;;
    if new_len <=? len then
      if new_len =? len then Ret (r, [], Returns)
      else
        xs <- read_range ops r new_len (len - new_len) ;;
        let '(ds, e) := drop_in_place panics false xs in
        let r1 := Request (to_append r) (vec_forget (rbuf r) (roffset r + new_len) (len - new_len)) (roffset r) in
        match e with
        | Returns => r2 <- bw_set_len ops r1 new_len ;; Ret (r2, ds, Returns)
        | _ => Ret (r1, ds, e)
        end
    else Panic.

  (** Assigning [news] over [olds], one after the other: each drops the old item and is
      made although that unwinds. *)
  Fixpoint assign_over (news olds : list T) : list T * list T * drop_end :=
    match news, olds with
    | x :: news', y :: olds' =>
        if panics y then (x :: olds', [y], Unwinds)
        else let '(zs, ds, e) := assign_over news' olds' in (x :: zs, y :: ds, e)
    | _, _ => (olds, [], Returns)
    end.

  (** buffer_writer.rs:28-32 [as_mut_slice], and assignments through it. *)
  Definition edit_unwind (r : request T) (f : list T -> list T) : comp (request T * list T * drop_end) :=
    l <- as_slice ops r ;;
    let '(zs, ds, e) := assign_over (f l) l in
    r' <- write_range ops r 0 zs ;;
    Ret (r', ds, e).

  (** The request is dropped while unwinding: [to_append] with it (control.rs:69-74). *)
  Definition leave {G} (r : request T) (log : list T) : comp (uout T E G * list T) :=
    ' (ds, e) <- vec_drop true (to_append r) ;;
    Ret (match e with Aborts => UAborted | _ => UUnwound (rbuf r) end, log ++ ds).

  (** control.rs:117-120: [drain] takes the items out of the vector before it drops them;
      then the request goes, and [to_append] with it. *)
  Definition cancel_unwind {G} (r : request T) (err : E) (g : G) (log : list T) : comp (uout T E G * list T) :=
    xs <- as_slice ops r ;;
    v <- vec_drain_from (rbuf r) (roffset r) ;;
    let '(ds, e) := drop_in_place panics false xs in
    match e with
    | Returns =>
        ' (ds', e') <- vec_drop false (to_append r) ;;
        Ret (match e' with Returns => UAnswer (Canceled err) v g | Unwinds => UUnwound v | Aborts => UAborted end,
             log ++ ds ++ ds')
    | Unwinds => leave (Request (to_append r) v (roffset r)) (log ++ ds)
    | Aborts => Ret (UAborted, log ++ ds)
    end.

  Section Run.
    (** [shrink_to], which P_WriterUnwind also replaces by a repaired one. *)
    Variable shrink : request T -> nat -> comp (request T * list T * drop_end).

    (** As [run_writer] in M_Writer, with the items whose destructors ran. *)
    Fixpoint run_unwind {G} (p : wprog T E G) (r : request T) (log : list T) : comp (uout T E G * list T) :=
      match p with
      | WPush x k => ' (r', ok) <- push_item ops r x ;; run_unwind (k ok) r' log
      | WFill xs k => ' (r', n) <- fill ops r xs ;; run_unwind (k n) r' log
      | WShrink n k =>
          ' (r', ds, e) <- shrink r n ;;
          match e with
          | Returns => run_unwind k r' (log ++ ds)
          | Unwinds => leave r' (log ++ ds)
          | Aborts => Ret (UAborted, log ++ ds)
          end
      | WLen k => n <- bw_len ops r ;; run_unwind (k n) r log
      | WCapacity k => n <- bw_capacity ops r ;; run_unwind (k n) r log
      | WSlice k => l <- as_slice ops r ;; run_unwind (k l) r log
      | WEdit f k =>
          ' (r', ds, e) <- edit_unwind r f ;;
          match e with
          | Returns => run_unwind k r' (log ++ ds)
          | Unwinds => leave r' (log ++ ds)
          | Aborts => Ret (UAborted, log ++ ds)
          end
      | WAdvance g => ' (res, buf) <- bw_advance ops r ;; Ret (UAnswer res buf g, log)
      | WCancel e g => cancel_unwind r e g log
      end.
  End Run.
End Unwind.
