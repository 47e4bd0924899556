(** * M_Drop: a load that is dropped before it is done
    (crates/parcom-sequences/src/generic/{loader,control}.rs).
    Model only; no proofs.

    [load] (loader.rs:100-105) calls [source.next] at once and wraps what it
    returns in a [Load]; the rest happens in [Load::poll] (57-79).  The future
    owns the [Control], then the [Request], then the [Response]; none of them has
    a [Drop] implementation of its own, so dropping the future drops their
    vectors.  [Request.buf] is a [&mut] into the loader (control.rs:71), so what
    was written there stays. *)
From Verif Require Export M_GenSeq.

Set Implicit Arguments.

Section Part.
  Context {W T E R G : Type} (B : bwriter W T E R).

  (** The first [steps] things a source does with its writer, short of
      [advance] and [cancel]: the same steps as [run_writer] in M_Writer. *)
  Fixpoint run_writer_part (steps : nat) (p : wprog T E G) (w : W) (tr : list (wevent T))
    : comp (W * list (wevent T)) :=
    match steps with
    | 0 => Ret (w, tr)
    | S steps' =>
        match p with
        | WPush x k =>
            ' (w', ok) <- push_item B w x ;;
            run_writer_part steps' (k ok) w' (tr ++ [if ok then PushOk x else PushErr x])
        | WFill xs k =>
            ' (w', n) <- fill B w xs ;;
            run_writer_part steps' (k n) w' (tr ++ [Filled (firstn n xs)])
        | WShrink n k => w' <- shrink_to B w n ;; run_writer_part steps' k w' (tr ++ [Shrunk n])
        | WLen k => n <- bw_len B w ;; run_writer_part steps' (k n) w tr
        | WCapacity k => n <- bw_capacity B w ;; run_writer_part steps' (k n) w tr
        | WSlice k => l <- as_slice B w ;; run_writer_part steps' (k l) w tr
        | WEdit f k => ' (w', ys) <- edit_slice B w f ;; run_writer_part steps' k w' (tr ++ [Edited ys])
        | WAdvance _ | WCancel _ _ => Ret (w, tr)
        end
    end.
End Part.

(** When the [Load] is dropped. *)
Inductive stage :=
| BeforeControl                (* the source has not used its control yet *)
| Writing (steps : nat)        (* after [steps] uses of the writer *)
| Answered.                    (* the source has produced its response, [Load::poll] has not seen it:
                                  what a source such as IteratorSource does inside [next]
                                  (iterator_source.rs:47-63 returns [std::future::ready(..)]) *)

(** What the loader is left with, and what the writer was told and answered.
    [g']: the state the interrupted source is left in, if it had not answered. *)
Definition load_dropped {T E G} (src : source T E G) (grow : nat -> nat) (st : stage) (g' : G) (l : loader T G)
  : comp (loader T G * list (wevent T)) :=
  match st with
  | BeforeControl => Ret (Loader (ld_heap l) (ld_tail l) (ld_buf l) g', [])
  | Writing steps =>
      match src (ld_source l) with
      | SRequest n p =>
          r <- request_writer grow (ld_buf l) n ;;
          ' (r', tr) <- run_writer_part (request_writer_ops T E) steps p r [] ;;
          Ret (Loader (ld_heap l) (ld_tail l) (rbuf r') g', tr)
      | SFinish _ | SCancel _ _ => Ret (Loader (ld_heap l) (ld_tail l) (ld_buf l) g', [])
      end
  | Answered =>
      ' ((_, buf), g, tr, _) <- run_source (gcontrol T E grow) (ld_buf l) (src (ld_source l)) ;;
      Ret (Loader (ld_heap l) (ld_tail l) buf g, tr)
  end.
