(** * M_Writer: the traits of crates/parcom-sequence-core (BufferWriter,
    SequenceControl, SequenceSource, LoadInfo) and a model of [Vec].
    Model only; no proofs.
    Futures are modelled in direct style: a source's [next] is run to
    completion; [Pending] results carry no state of their own. *)
From Verif Require Export M_Base.

Set Implicit Arguments.

(** Subtraction on [usize] with overflow checks. *)
Definition usub (a b : nat) : comp nat := if b <=? a then Ret (a - b) else Panic.

(** ** [std::vec::Vec]: the allocated cells ([capacity] many; [None]: not
    initialised) and the length.  The capacity is that of the allocation. *)
Record vec (T : Type) := Vec { cells : list (option T); vlen : nat }.
Arguments Vec {T} _ _.

Definition vec_new {T} : vec T := Vec [] 0.
Definition with_capacity {T} (n : nat) : vec T := Vec (repeat None n) 0.
Definition vcap {T} (v : vec T) : nat := length (cells v).
(** Writing through a pointer into the allocation: past its end is UB. *)
Definition vec_write {T} (v : vec T) (i : nat) (x : T) : comp (vec T) :=
  if i <? vcap v then Ret (Vec (list_set (cells v) i (Some x)) (vlen v)) else UB.
(** Reading through a pointer: outside or not initialised is UB. *)
Definition vec_read {T} (v : vec T) (i : nat) : comp T :=
  match nth_error (cells v) i with Some (Some x) => Ret x | _ => UB end.
(** [Vec::set_len]: beyond the capacity is UB. *)
Definition vec_set_len {T} (v : vec T) (n : nat) : comp (vec T) :=
  if n <=? vcap v then Ret (Vec (cells v) n) else UB.
(** [Vec::drain(offset..)], dropped at once: panics when [offset > len]. *)
Definition vec_drain_from {T} (v : vec T) (offset : nat) : comp (vec T) :=
  if offset <=? vlen v
  then Ret (Vec (firstn offset (cells v) ++ repeat None (vcap v - offset)) offset)
  else Panic.
(** The items. *)
Definition somes {T} (l : list (option T)) : list T :=
  flat_map (fun o => match o with Some x => [x] | None => [] end) l.
Definition items {T} (v : vec T) : list T := somes (firstn (vlen v) (cells v)).

(** ** buffer_writer.rs:3-20: the required methods of [BufferWriter].
    [as_ptr]/[as_mut_ptr] are modelled by what they are used for: reading and
    writing the cell at an index from the pointer. *)
Record bwriter (W T E R : Type) := BWriter {
  bw_capacity : W -> comp nat;
  bw_len : W -> comp nat;
  bw_read : W -> nat -> comp T;
  bw_write : W -> nat -> T -> comp W;
  bw_set_len : W -> nat -> comp W;
  bw_advance : W -> comp R;
  bw_cancel : W -> E -> comp R
}.

(** [new] stored over a slice that holds [old], item by item from the front, as far as
    it goes. *)
Definition stored {T} (new old : list T) : list T := firstn (length old) new ++ skipn (length new) old.

Section Provided.
  Context {W T E R : Type} (B : bwriter W T E R).

  Fixpoint read_range (w : W) (i n : nat) : comp (list T) :=
    match n with
    | 0 => Ret []
    | S n' => x <- bw_read B w i ;; l <- read_range w (S i) n' ;; Ret (x :: l)
    end.

  Fixpoint write_range (w : W) (i : nat) (xs : list T) : comp W :=
    match xs with
    | [] => Ret w
    | x :: xs' => w' <- bw_write B w i x ;; write_range w' (S i) xs'
    end.

  (** buffer_writer.rs:22-26 *)
  Definition as_slice (w : W) : comp (list T) :=
    len <- bw_len B w ;; read_range w 0 len.

  (** buffer_writer.rs:28-32 [as_mut_slice], and a caller that looks at it and stores
      items over it; a slice gets no longer by that.  With the items it stored. *)
  Definition edit_slice (w : W) (f : list T -> list T) : comp (W * list T) :=
    l <- as_slice w ;;
    w' <- write_range w 0 (stored (f l) l) ;;
    Ret (w', f l).

  (** buffer_writer.rs:34-41: where the spare cells start and how many. *)
  Definition spare_capacity (w : W) : comp (nat * nat) :=
    written <- bw_len B w ;;
    cap <- bw_capacity B w ;;
    len <- usub cap written ;;
    Ret (written, len).

  (** buffer_writer.rs:50-63; [false]: the item is handed back. *)
  Definition push_item (w : W) (item : T) : comp (W * bool) :=
    written <- bw_len B w ;;
    cap <- bw_capacity B w ;;
    if written =? cap then Ret (w, false)
    else
      w1 <- bw_write B w written item ;;
      w2 <- bw_set_len B w1 (written + 1) ;;
      Ret (w2, true).

  (** buffer_writer.rs:65-80; [drop_in_place] reads what it drops. *)
  Definition shrink_to (w : W) (new_len : nat) : comp W :=
    len <- bw_len B w ;;
    if new_len <=? len then
      if new_len =? len then Ret w
      else
        _ <- read_range w new_len (len - new_len) ;;
        bw_set_len B w new_len
    else Panic.

  (** What a caller does with [spare_capacity]: write as many of [xs] as fit
      there and [set_len]. *)
  Definition fill (w : W) (xs : list T) : comp (W * nat) :=
    ' (written, spare) <- spare_capacity w ;;
    let ys := firstn spare xs in
    w1 <- write_range w written ys ;;
    w2 <- bw_set_len B w1 (written + length ys) ;;
    Ret (w2, length ys).
End Provided.

(** ** What a source does (lib.rs:71-94): it is handed a control and finishes,
    cancels, or requests a writer and uses it, reacting to every reply.
    [G] is the state the source is left in. *)
Inductive wprog (T E G : Type) : Type :=
| WPush (x : T) (k : bool -> wprog T E G)          (* push_item *)
| WFill (xs : list T) (k : nat -> wprog T E G)     (* spare_capacity, set_len *)
| WShrink (n : nat) (k : wprog T E G)              (* shrink_to *)
| WLen (k : nat -> wprog T E G)
| WCapacity (k : nat -> wprog T E G)
| WSlice (k : list T -> wprog T E G)               (* as_slice *)
| WEdit (f : list T -> list T) (k : wprog T E G)   (* as_mut_slice *)
| WAdvance (g : G)
| WCancel (e : E) (g : G).

Inductive sact (T E G : Type) : Type :=
| SRequest (n : nat) (w : wprog T E G)
| SFinish (g : G)
| SCancel (e : E) (g : G).
Arguments WPush {T E G}. Arguments WFill {T E G}. Arguments WShrink {T E G}.
Arguments WLen {T E G}. Arguments WCapacity {T E G}. Arguments WSlice {T E G}.
Arguments WEdit {T E G}.
Arguments WAdvance {T E G}. Arguments WCancel {T E G}.
Arguments SRequest {T E G}. Arguments SFinish {T E G}. Arguments SCancel {T E G}.

(** lib.rs:71-82 [SequenceSource]: [next] for every state. *)
Definition source (T E G : Type) := G -> sact T E G.

(** What a writer was told and answered (ghost). *)
Inductive wevent (T : Type) :=
| PushOk (x : T)
| PushErr (x : T)
| Filled (xs : list T)
| Shrunk (n : nat)
| Edited (xs : list T).
Arguments PushOk {T}. Arguments PushErr {T}. Arguments Filled {T}. Arguments Shrunk {T}.
Arguments Edited {T}.

(** Whether the writer was advanced, cancelled, or the source finished or
    cancelled without a writer (ghost). *)
Inductive wend := EndAdvance | EndCancel | EndFinish | EndReject.

Section Run.
  Context {W T E R G : Type} (B : bwriter W T E R).

  Fixpoint run_writer (p : wprog T E G) (w : W) (tr : list (wevent T)) : comp (R * G * list (wevent T) * wend) :=
    match p with
    | WPush x k =>
        ' (w', ok) <- push_item B w x ;;
        run_writer (k ok) w' (tr ++ [if ok then PushOk x else PushErr x])
    | WFill xs k =>
        ' (w', n) <- fill B w xs ;;
        run_writer (k n) w' (tr ++ [Filled (firstn n xs)])
    | WShrink n k => w' <- shrink_to B w n ;; run_writer k w' (tr ++ [Shrunk n])
    | WLen k => n <- bw_len B w ;; run_writer (k n) w tr
    | WCapacity k => n <- bw_capacity B w ;; run_writer (k n) w tr
    | WSlice k => l <- as_slice B w ;; run_writer (k l) w tr
    | WEdit f k => ' (w', ys) <- edit_slice B w f ;; run_writer k w' (tr ++ [Edited ys])
    | WAdvance g => r <- bw_advance B w ;; Ret (r, g, tr, EndAdvance)
    | WCancel e g => r <- bw_cancel B w e ;; Ret (r, g, tr, EndCancel)
    end.
End Run.

(** ** lib.rs:84-94 [SequenceControl], with its writer. *)
Record control (C W T E R : Type) := Control {
  ct_writer : bwriter W T E R;
  ct_request : C -> nat -> comp W;
  ct_cancel : C -> E -> comp R;
  ct_finish : C -> comp R
}.

(** Running one [next] of a source against a control. *)
Definition run_source {C W T E R G} (K : control C W T E R) (c : C) (a : sact T E G)
  : comp (R * G * list (wevent T) * wend) :=
  match a with
  | SRequest n p => w <- ct_request K c n ;; run_writer (ct_writer K) p w []
  | SFinish g => r <- ct_finish K c ;; Ret (r, g, [], EndFinish)
  | SCancel e g => r <- ct_cancel K c e ;; Ret (r, g, [], EndReject)
  end.

(** ** load_info.rs:1-48 *)
Record load_info := LoadInfo { commited : nat; uncommited : nat; buffer_capacity : nat; is_done : bool }.
Definition load_info_new (c u b : nat) : load_info := LoadInfo c u b false.
Definition load_info_done (c : nat) : load_info := LoadInfo c 0 0 true.
